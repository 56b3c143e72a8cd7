(** put_multiple and del_multiple. *)
From Coq Require Import Permutation.
From Verif Require Import Base Bytes LtSpec KOrd MulModel MulSpec MulProofs MulUpd MulTop.
Open Scope nat_scope.

Section P.
Context (e : menv) (ok : forall d, cmp_ok (e_cmp e d)) (src : option nat) (key val : bytes).

(** ** put_multiple *)
Lemma put_checks_spec d fl kvs : forall s s' r, put_checks e s d fl kvs = (s', r) ->
  calm s s' /\ r <> Some EBug /\ (r = None -> (forall k v, In (k, v) kvs -> held e s' d fl k) /\ (kvs <> [] -> f_rest fl <> FNoOverwriteNoError)).
Proof.
  induction kvs as [|[k v] kvs IH]; intros s s' r; cbn [put_checks].
  - intros [= <- <-]. split; [apply calm_refl|split; [discriminate|]]. intros _. split; [intros ? ? []|congruence].
  - destruct (size_ok k v); [|intros [= <- <-]; split; [apply calm_refl|split; [discriminate|congruence]]].
    destruct (f_rest fl) eqn:F.
    3: intros [= <- <-]; split; [apply calm_refl|split; [discriminate|congruence]].
    all: destruct (point_lock e s d fl k) as [s1 [x|]] eqn:E; apply point_lock_spec in E as (C & H & X); cbn [thn].
    1,3,5,7: intros [= <- <-]; split; [exact C|split; [rewrite (X x eq_refl); discriminate|congruence]].
    all: intros Q; apply IH in Q as (C2 & B & G); (split; [eapply calm_trans; eauto|]); (split; [exact B|]); intros R; (split; [|congruence]);
      intros k' v' [[= <- <-]|Hi]; [eapply held_calm; [exact C2|]; apply H; reflexivity|eapply (proj1 (G R)); eauto].
Qed.
(** The list that is worked off. *)
Definition plist (s : mst) (dbs : list (nat * flags)) (l : list (nat * list (bytes * bytes) * rest)) : Prop :=
  Forall2 (fun p q => fst p = fst (fst q) /\ rows_of e src (fst p) key val = Some (snd (fst q)) /\ f_rest (snd p) = snd q /\
                      (forall k v, In (k, v) (snd (fst q)) -> held e s (fst p) (snd p) k) /\
                      (snd (fst q) <> [] -> snd q <> FNoOverwriteNoError)) dbs l.
Lemma plist_calm s s' dbs l : calm s s' -> plist s dbs l -> plist s' dbs l.
Proof.
  intros C. unfold plist. induction 1 as [|p q dbs l (A1 & A2 & A3 & A4 & A5) F IH]; constructor; auto.
  repeat split; auto. intros k v H. eapply held_calm; eauto.
Qed.
Lemma put_prepare_spec dbs : forall s acc s' r l, put_prepare e s src key val dbs acc = ((s', r), l) ->
  calm s s' /\ r <> Some EBug /\ (r = None -> exists a, l = acc ++ a /\ plist s' dbs a).
Proof.
  induction dbs as [|[d fl] dbs IH]; intros s acc s' r l; cbn [put_prepare].
  - intros [= <- <- <-]. split; [apply calm_refl|split; [discriminate|]]. intros _. exists []. rewrite app_nil_r. split; [reflexivity|constructor].
  - change (if same_src src d then Some [(key, val)] else e_put e d src key val) with (rows_of e src d key val).
    destruct (rows_of e src d key val) as [kvs|] eqn:E; [|intros [= <- <- <-]; split; [apply calm_refl|split; [discriminate|congruence]]].
    destruct (put_checks e s d fl kvs) as [s1 [x|]] eqn:Ec; apply put_checks_spec in Ec as (C & B & G).
    + intros [= <- <- <-]. split; [exact C|split; [exact B|congruence]].
    + intros Q. apply IH in Q as (C2 & B2 & G2). split; [eapply calm_trans; eauto|split; [exact B2|]].
      intros R. destruct (G2 R) as (a & -> & F). exists ((d, kvs, f_rest fl) :: a). rewrite <- app_assoc. split; [reflexivity|].
      destruct (G eq_refl) as [G3 G4]. constructor; [|exact F]. cbn [fst snd]. repeat split; auto. intros k v H. eapply held_calm; eauto.
Qed.

Lemma put_rows_spec d f kvs : forall s s' r, put_rows e s d kvs f = (s', r) -> (kvs <> [] -> f <> FNoOverwriteNoError) ->
  r <> Some EBug /\ m_log s' = m_log s /\ m_locks s' = m_locks s /\
  (forall d' y, (d' = d -> forall k v, In (k, v) kvs -> ~ keq (e_cmp e d) y k) -> m_rows s' d' y = m_rows s d' y) /\
  (forall d' y, m_rows s d' y <> None -> m_rows s' d' y <> None) /\
  (r = None -> s' = wall e s (map (fun kv => (d, fst kv, Some (snd kv))) kvs) /\
     (f = FNoOverwrite -> forall k v, In (k, v) kvs -> m_rows s d k = None) /\
     (kvs <> [] -> f = FNone \/ f = FNoOverwrite)) /\
  (f = FNone -> r = None).
Proof.
  induction kvs as [|[k v] kvs IH]; intros s s' r Q Hf.
  - cbn [put_rows] in Q. injection Q as <- <-. repeat split; auto; try discriminate; try congruence. intros _ ? ? [].
  - assert (Hf' : f <> FNoOverwriteNoError) by (apply Hf; discriminate). cbn [put_rows] in Q.
    assert (Bad : forall x, x <> EBug -> f <> FNone -> (s', r) = (s, Some x) ->
      r <> Some EBug /\ m_log s' = m_log s /\ m_locks s' = m_locks s /\
      (forall d' y, (d' = d -> forall k0 v0, In (k0, v0) ((k, v) :: kvs) -> ~ keq (e_cmp e d) y k0) -> m_rows s' d' y = m_rows s d' y) /\
      (forall d' y, m_rows s d' y <> None -> m_rows s' d' y <> None) /\
      (r = None -> s' = wall e s (map (fun kv => (d, fst kv, Some (snd kv))) ((k, v) :: kvs)) /\
         (f = FNoOverwrite -> forall k0 v0, In (k0, v0) ((k, v) :: kvs) -> m_rows s d k0 = None) /\ ((k, v) :: kvs <> [] -> f = FNone \/ f = FNoOverwrite)) /\ (f = FNone -> r = None)).
    { intros x Hx Hn [= -> ->]. repeat split; auto; try congruence. }
    assert (Good : (f = FNone \/ f = FNoOverwrite) -> (f = FNoOverwrite -> m_rows s d k = None) -> put_rows e (put_row e s d k v) d kvs f = (s', r) ->
      r <> Some EBug /\ m_log s' = m_log s /\ m_locks s' = m_locks s /\
      (forall d' y, (d' = d -> forall k0 v0, In (k0, v0) ((k, v) :: kvs) -> ~ keq (e_cmp e d) y k0) -> m_rows s' d' y = m_rows s d' y) /\
      (forall d' y, m_rows s d' y <> None -> m_rows s' d' y <> None) /\
      (r = None -> s' = wall e s (map (fun kv => (d, fst kv, Some (snd kv))) ((k, v) :: kvs)) /\
         (f = FNoOverwrite -> forall k0 v0, In (k0, v0) ((k, v) :: kvs) -> m_rows s d k0 = None) /\ ((k, v) :: kvs <> [] -> f = FNone \/ f = FNoOverwrite)) /\ (f = FNone -> r = None)).
    { intros F1 F2 Q2. apply IH in Q2 as (A1 & A2 & A3 & A4 & A5 & A6 & A7); [|auto]. repeat split; auto.
      - intros d' y H. rewrite A4 by (intros -> k0 v0 Hi; apply (H eq_refl k0 v0); right; exact Hi).
        cbn [put_row m_rows]. destruct (d' =? d) eqn:Ed; [|reflexivity]. apply Nat.eqb_eq in Ed. cbn [andb].
        destruct (keqb (e_cmp e d) y k) eqn:Ek; [|reflexivity]. apply keqb_true in Ek. exfalso. exact (H Ed k v (or_introl eq_refl) Ek).
      - intros d' y H. apply A5. cbn [put_row m_rows]. destruct ((d' =? d) && keqb (e_cmp e d) y k); [discriminate|exact H].
      - intros; apply A6; assumption.
      - intros Fo k0 v0 [[= <- <-]|Hi]; [auto|]. destruct (A6 H) as (_ & B & _). specialize (B Fo k0 v0 Hi).
        destruct (m_rows s d k0) eqn:E; [|reflexivity]. cbn [put_row m_rows] in B. rewrite Nat.eqb_refl in B. cbn [andb] in B.
        destruct (keqb (e_cmp e d) k0 k); congruence. }
    destruct f; cbn [db_put thn] in Q; try congruence.
    + apply Good; auto. discriminate.
    + destruct (m_rows s d k) eqn:E; [|apply Good; auto]. apply (Bad EKeyExist); try discriminate. symmetry; exact Q.
    + apply (Bad EInval); try discriminate. symmetry; exact Q.
    + apply (Bad EInval); try discriminate. symmetry; exact Q.
Qed.

Lemma do_put_spec l : forall s s' r, do_put e s l = (s', r) ->
  Forall (fun q => snd (fst q) <> [] -> snd q <> FNoOverwriteNoError) l ->
  r <> Some EBug /\ m_log s' = m_log s /\ m_locks s' = m_locks s /\
  (forall d y, (forall kvs k v, In (d, kvs) (map fst l) -> In (k, v) kvs -> ~ keq (e_cmp e d) y k) -> m_rows s' d y = m_rows s d y) /\
  (forall d y, m_rows s d y <> None -> m_rows s' d y <> None) /\
  (r = None -> s' = wall e s (wput (map fst l)) /\
     (forall d kvs k v, In (d, kvs, FNoOverwrite) l -> In (k, v) kvs -> m_rows s d k = None) /\
     (forall d kvs f, In (d, kvs, f) l -> kvs <> [] -> f = FNone \/ f = FNoOverwrite)) /\
  (Forall (fun q => snd q = FNone) l -> r = None).
Proof.
  induction l as [|[[d kvs] f] l IH]; intros s s' r Q Hl.
  - cbn [do_put] in Q. injection Q as <- <-. repeat split; auto; try discriminate; intros; try destruct H; contradiction.
  - inversion_clear Hl as [|? ? H1 H2]. cbn [do_put] in Q. cbn [fst snd] in H1.
    destruct (put_rows e s d kvs f) as [s1 r1] eqn:E. apply put_rows_spec in E as (A1 & A2 & A3 & A4 & A5 & A6 & A7); [|exact H1].
    destruct r1 as [x|]; cbn [thn] in Q.
    + injection Q as <- <-. repeat split; auto; try discriminate.
      * intros d' y H. apply A4. intros -> k v Hi. apply (H kvs k v); [left; reflexivity|exact Hi].
      * intros F. inversion_clear F as [|? ? F1 F2]. cbn in F1. specialize (A7 F1). discriminate.
    + apply IH in Q as (B1 & B2 & B3 & B4 & B5 & B6 & B7); [|exact H2]. destruct (A6 eq_refl) as (-> & A8 & A9). repeat split; auto; try congruence.
      * intros d' y H. rewrite B4, A4; [reflexivity| |].
        -- intros -> k v Hi. apply (H kvs k v); [left; reflexivity|exact Hi].
        -- intros kvs' k v Hi. apply (H kvs' k v). right; exact Hi.
      * destruct (B6 H) as (-> & _). unfold wput. cbn [map flat_map fst snd]. rewrite wall_app. reflexivity.
      * intros d' kvs' k v [[= -> -> ->]|Hi] Hk; [eapply A8; eauto|].
        destruct (B6 H) as (_ & B & _). specialize (B d' kvs' k v Hi Hk).
        destruct (m_rows s d' k) eqn:Em; [|reflexivity]. exfalso. apply (A5 d' k); [congruence|exact B].
      * intros d' kvs' f' [[= -> -> ->]|Hi] Hk; [exact (A9 Hk)|]. destruct (B6 H) as (_ & _ & B). eapply B; eauto.
      * intros F. inversion_clear F. auto.
Qed.

Lemma put_shape s dbs s' r : put_multiple e s src key val dbs = (s', r) ->
  r <> Some EBug /\
  exists s1 l, calm s s1 /\
    ((calm s s' /\ r <> None) \/
     (plist s1 dbs l /\ m_locks s' = m_locks s1 /\
      (forall d y, (forall kvs k v, In (d, kvs) (map fst l) -> In (k, v) kvs -> ~ keq (e_cmp e d) y k) -> m_rows s' d y = m_rows s d y) /\
      ((forall d fl, In (d, fl) dbs -> f_rest fl = FNone) -> r = None) /\
      match r with
      | Some _ => m_log s' = m_log s
      | None => m_rows s' = m_rows (wall e s (wput (map fst l))) /\ m_log s' = m_log s ++ [LPutMulti src (map fst dbs) key val] /\
         (forall d kvs k v, In (d, kvs, FNoOverwrite) l -> In (k, v) kvs -> m_rows s d k = None) /\
         (forall d kvs f, In (d, kvs, f) l -> kvs <> [] -> f = FNone \/ f = FNoOverwrite)
      end)).
Proof.
  unfold put_multiple. destruct dbs as [|p0 dbs0] eqn:Edbs.
  { intros [= <- <-]. split; [discriminate|]. exists s, []. split; [apply calm_refl|left; split; [apply calm_refl|discriminate]]. }
  rewrite <- Edbs in *. assert (Ne : dbs <> []) by (rewrite Edbs; discriminate). clear Edbs p0 dbs0.
  destruct (put_prepare e s src key val dbs []) as [[s1 r1] l] eqn:E. apply put_prepare_spec in E as (C & B & G).
  destruct r1 as [x|].
  { intros [= <- <-]. split; [exact B|]. exists s1, l. split; [exact C|left; split; [exact C|discriminate]]. }
  destruct (G eq_refl) as (a & El & F). cbn [app] in El. subst a.
  destruct (do_put e s1 l) as [s2 r2] eqn:Ed. apply do_put_spec in Ed as (A1 & A2 & A3 & A4 & A5 & A6 & A7).
  2: { clear -F. induction F as [|p q dbs l (A1 & A2 & A3 & A4 & A5) F IH]; constructor; auto. }
  destruct C as (C1 & C2 & C3).
  assert (A7' : (forall d fl, In (d, fl) dbs -> f_rest fl = FNone) -> r2 = None).
  { intros H. apply A7. clear -F H. induction F as [|[d fl] q dbs l (A1 & A2 & A3 & A4 & A5) F IH]; constructor.
    - rewrite <- A3. cbn [snd]. apply (H d fl). left; reflexivity.
    - apply IH. intros d' fl' Hi. apply (H d' fl'). right; exact Hi. }
  destruct r2 as [x|]; cbn [thn]; intros [= <- <-].
  - split; [exact A1|]. exists s1, l. split; [repeat split; assumption|right]. repeat split; auto; try congruence.
    intros d y H. rewrite A4, C1 by exact H. reflexivity.
  - split; [discriminate|]. exists s1, l. split; [repeat split; assumption|right].
    destruct (A6 eq_refl) as (-> & A8 & A9). destruct dbs as [|p0 dbs0]; [congruence|]. cbn [log_put map fst log_rec m_rows m_log m_locks].
    split; [exact F|]. split; [exact A3|]. split; [intros d y H; rewrite A4, C1 by exact H; reflexivity|]. split; [auto|].
    split; [apply wall_rows_ext, C1|]. split; [rewrite A2, C2; reflexivity|]. split; [|exact A9]. rewrite <- C1. exact A8.
Qed.

Lemma plist_entry s dbs l d fl : plist s dbs l -> NoDup (map fst dbs) -> In (d, fl) dbs ->
  exists kvs, rows_of e src d key val = Some kvs /\ In (d, kvs, f_rest fl) l /\ (forall x, In (d, x) (map fst l) -> x = kvs).
Proof.
  intros F ND. revert d fl. induction F as [|[d0 fl0] [[d1 kvs] f] dbs l (A1 & A2 & A3 & A4 & A5) F IH]; intros d fl Hi; [destruct Hi|].
  cbn [fst snd map] in *. subst d1 f. inversion_clear ND as [|? ? N1 N2].
  assert (Dom : map fst dbs = map fst (map fst l)) by (clear -F; induction F as [|p q dbs l (A1 & _) F IH]; cbn [map]; [reflexivity|]; rewrite A1, IH; reflexivity).
  destruct Hi as [[= -> ->]|Hi].
  - exists kvs. split; [exact A2|]. split; [left; reflexivity|]. intros x [[= ->]|Hx]; [reflexivity|]. exfalso. apply N1. rewrite Dom. apply (in_map fst _ _ Hx).
  - destruct (IH N2 d fl Hi) as (kv' & B1 & B2 & B3). exists kv'. split; [exact B1|]. split; [right; exact B2|].
    intros x [[= -> ->]|Hx]; [exfalso; apply N1, (in_map fst _ _ Hi)|auto].
Qed.
Lemma plist_dom s dbs l : plist s dbs l -> map fst dbs = map fst (map fst l).
Proof. intros F. induction F as [|p q dbs l (A1 & _) F IH]; cbn [map]; [reflexivity|]; rewrite A1, IH; reflexivity. Qed.
Lemma plist_held s dbs l : plist s dbs l -> forall d kvs k v, In (d, kvs) (map fst l) -> In (k, v) kvs -> exists fl, In (d, fl) dbs /\ held e s d fl k.
Proof.
  intros F. induction F as [|[d0 fl0] [[d1 kvs0] f] dbs l (A1 & A2 & A3 & A4 & A5) F IH]; intros d kvs k v Hi Hk; [destruct Hi|].
  cbn [fst snd map] in *. destruct Hi as [[= -> ->]|Hi]; [exists fl0; subst d0; split; [left; reflexivity|eauto]|].
  destruct (IH d kvs k v Hi Hk) as (fl & B1 & B2). exists fl. split; [right|]; assumption.
Qed.
Lemma plist_rows s dbs l : plist s dbs l -> Forall (fun p => rows_of e src (fst p) key val = Some (snd p)) (map fst l).
Proof.
  intros F. induction F as [|[d0 fl0] [[d1 kvs0] f] dbs l (A1 & A2 & A3 & A4 & A5) F IH]; cbn [map]; constructor; [|exact IH].
  cbn [fst snd] in *. subst d1. exact A2.
Qed.

(** ** del_multiple *)
Lemma del_checks_spec d fl ks : forall s s' r, del_checks e s d fl ks = (s', r) ->
  calm s s' /\ r <> Some EBug /\ (r = None -> (forall k, In k ks -> held e s' d fl k) /\ (f_rest fl <> FDeleteAny -> forall k, In k ks -> m_rows s d k <> None)).
Proof.
  induction ks as [|k ks IH]; intros s s' r; cbn [del_checks].
  - intros [= <- <-]. split; [apply calm_refl|split; [discriminate|]]. intros _. split; [intros ? []|intros _ ? []].
  - destruct (match f_rest fl with FDeleteAny => _ | _ => _ end) as [s1 r1] eqn:E.
    assert (X : calm s s1 /\ r1 <> Some EBug /\ (r1 = None -> held e s1 d fl k /\ (f_rest fl <> FDeleteAny -> m_rows s d k <> None))).
    { destruct (f_rest fl); [| | |apply point_lock_spec in E as (C & H & X)|]; [| | | |].
      1,2,3,5: apply getf_set_spec in E as (C & H & _ & X); split; [exact C|split; [exact X|]]; intros R; split; intros; apply (H R).
      split; [exact C|]. split; [intros ->; specialize (X _ eq_refl); discriminate|]. intros R. split; [auto|congruence]. }
    destruct X as (C & X & H). destruct r1 as [x|]; cbn [thn].
    + intros [= <- <-]. split; [exact C|split; [exact X|congruence]].
    + intros Q. apply IH in Q as (C2 & B & G). split; [eapply calm_trans; eauto|split; [exact B|]]. intros R. destruct (G R) as [G1 G2]. destruct (H eq_refl) as [H1 H2]. split.
      * intros k' [<-|Hi]; [eapply held_calm; eauto|auto].
      * intros F k' [<-|Hi]; [auto|]. destruct C as (C1 & _). rewrite <- C1. auto.
Qed.
Definition dlist (s0 s : mst) (dbs : list (nat * flags)) (l : list (nat * list bytes)) : Prop :=
  Forall2 (fun p q => fst p = fst q /\ keys_of e src (fst p) key val = Some (snd q) /\
                      (forall k, In k (snd q) -> held e s (fst p) (snd p) k) /\
                      (f_rest (snd p) <> FDeleteAny -> forall k, In k (snd q) -> m_rows s0 (fst p) k <> None)) dbs l.
Lemma del_prepare_spec s0 dbs : forall s acc s' r l, calm s0 s -> del_prepare e s src key val dbs acc = ((s', r), l) ->
  calm s s' /\ r <> Some EBug /\ (r = None -> exists a, l = acc ++ a /\ dlist s0 s' dbs a).
Proof.
  induction dbs as [|[d fl] dbs IH]; intros s acc s' r l C0; cbn [del_prepare].
  - intros [= <- <- <-]. split; [apply calm_refl|split; [discriminate|]]. intros _. exists []. rewrite app_nil_r. split; [reflexivity|constructor].
  - change (if same_src src d then Some [key] else e_del e d src key val) with (keys_of e src d key val).
    destruct (keys_of e src d key val) as [ks|] eqn:E; [|intros [= <- <- <-]; split; [apply calm_refl|split; [discriminate|congruence]]].
    assert (X : (match del_checks e s d fl ks with (s1, None) => del_prepare e s1 src key val dbs (acc ++ [(d, ks)]) | r0 => (r0, acc) end) = ((s', r), l) ->
      calm s s' /\ r <> Some EBug /\ (r = None -> exists a, l = acc ++ a /\ dlist s0 s' ((d, fl) :: dbs) a)).
    { destruct (del_checks e s d fl ks) as [s1 [x|]] eqn:Ec; apply del_checks_spec in Ec as (C & B & G).
      - intros [= <- <- <-]. split; [exact C|split; [exact B|congruence]].
      - intros Q. apply IH in Q as (C2 & B2 & G2); [|eapply calm_trans; eauto]. split; [eapply calm_trans; eauto|split; [exact B2|]].
        intros R. destruct (G2 R) as (a & -> & F). exists ((d, ks) :: a). rewrite <- app_assoc. split; [reflexivity|].
        destruct (G eq_refl) as [G3 G4]. constructor; [|exact F]. cbn [fst snd]. repeat split; auto; [intros k H; eapply held_calm; eauto|].
        destruct C0 as (C1 & _). rewrite <- C1. exact G4. }
    destruct (f_rest fl); auto; intros [= <- <- <-]; (split; [apply calm_refl|split; [discriminate|congruence]]).
Qed.
Lemma del_shape s dbs s' r : del_multiple e s src key val dbs = (s', r) ->
  r <> Some EBug /\
  match r with
  | Some _ => calm s s'
  | None => exists s1 l rd, calm s s1 /\ dlist s s1 dbs l /\ m_rows s' = m_rows (wall e s (wdel l)) /\ m_locks s' = m_locks s1 /\
      m_log s' = m_log s ++ rd /\ (rd = singles l \/ rd = [LDelMulti src (map fst l) key val])
  end.
Proof.
  unfold del_multiple. destruct (del_prepare e s src key val dbs []) as [[s1 r1] l] eqn:E. apply (del_prepare_spec s) in E as (C & B & G); [|apply calm_refl].
  destruct r1 as [x|]; intros [= <- <-]; [split; assumption|]. split; [discriminate|].
  destruct (G eq_refl) as (a & El & F). cbn [app] in El. subst a. destruct C as (C1 & C2 & C3).
  destruct (log_del_shape e s1 src key val l) as (rd & -> & Hrd). exists s1, l, rd. rewrite do_del_wall, wall_locks, wall_log. cbn [m_locks m_log].
  repeat split; auto; [apply wall_rows_ext; cbn [m_rows]; exact C1|rewrite C2; reflexivity|tauto].
Qed.
Lemma dlist_dom s0 s dbs l : dlist s0 s dbs l -> map fst dbs = map fst l.
Proof. intros F. induction F as [|p q dbs l (A1 & _) F IH]; cbn [map]; [reflexivity|]; rewrite A1, IH; reflexivity. Qed.
Lemma dlist_entry s0 s dbs l d fl : dlist s0 s dbs l -> NoDup (map fst dbs) -> In (d, fl) dbs ->
  exists ks, keys_of e src d key val = Some ks /\ (forall x, In (d, x) l <-> x = ks) /\ (f_rest fl <> FDeleteAny -> forall k, In k ks -> m_rows s0 d k <> None).
Proof.
  intros F ND. revert d fl. induction F as [|[d0 fl0] [d1 ks] dbs l (A1 & A2 & A3 & A4) F IH]; intros d fl Hi; [destruct Hi|].
  cbn [fst snd map] in *. subst d1. inversion_clear ND as [|? ? N1 N2]. pose proof (dlist_dom _ _ _ _ F) as Dom.
  destruct Hi as [[= -> ->]|Hi].
  - exists ks. split; [exact A2|]. split; [|exact A4]. intros x. split; [|intros ->; left; reflexivity].
    intros [[= ->]|Hx]; [reflexivity|]. exfalso. apply N1. rewrite Dom. apply (in_map fst _ _ Hx).
  - destruct (IH N2 d fl Hi) as (kv' & B1 & B2 & B3). exists kv'. split; [exact B1|]. split; [|exact B3].
    intros x. rewrite <- B2. split; [|intros H; right; exact H]. intros [[= -> ->]|Hx]; [exfalso; apply N1, (in_map fst _ _ Hi)|exact Hx].
Qed.
Lemma dlist_held s0 s dbs l : dlist s0 s dbs l -> forall d ks k, In (d, ks) l -> In k ks -> exists fl, In (d, fl) dbs /\ held e s d fl k.
Proof.
  intros F. induction F as [|[d0 fl0] [d1 ks0] dbs l (A1 & A2 & A3 & A4) F IH]; intros d ks k Hi Hk; [destruct Hi|].
  cbn [fst snd map] in *. destruct Hi as [[= -> ->]|Hi]; [exists fl0; subst d0; split; [left; reflexivity|eauto]|].
  destruct (IH d ks k Hi Hk) as (fl & B1 & B2). exists fl. split; [right|]; assumption.
Qed.
Lemma dlist_keys s0 s dbs l : dlist s0 s dbs l -> Forall (fun p => keys_of e src (fst p) key val = Some (snd p)) l.
Proof.
  intros F. induction F as [|[d0 fl0] [d1 ks0] dbs l (A1 & A2 & A3 & A4) F IH]; constructor; [|exact IH].
  cbn [fst snd] in *. subst d1. exact A2.
Qed.
End P.
