(** The three calls: what they do when they return 0, what recovery makes of their
    log records. *)
From Coq Require Import Permutation.
From Verif Require Import Base Bytes LtSpec KOrd MulModel MulSpec MulProofs MulUpd.
Open Scope nat_scope.

(** ** Distinct keys *)
Section D.
Context {c : bytes -> bytes -> comparison} (ok : cmp_ok c).
Lemma keq_tr a b d : keq c a b -> keq c b d -> keq c a d.
Proof. rewrite !(keq_kle ok). intros [A B] [C D]. split; eapply (kle_trans ok); eauto. Qed.
Lemma distinct_perm l l' : Permutation l l' -> distinct c l -> distinct c l'.
Proof.
  unfold distinct. induction 1 as [|x l l' P IH|x y l|l l1 l2 P1 IH1 P2 IH2]; intros H; auto.
  - inversion_clear H as [|? ? A B]. constructor; [|auto]. rewrite Forall_forall in *. intros z Hz. apply A. eapply Permutation_in; [symmetry; exact P|exact Hz].
  - inversion_clear H as [|? ? A B]. inversion_clear B as [|? ? A' B']. inversion_clear A as [|? ? A1 A2].
    constructor; [constructor; [intros Q; apply A1, (keq_sym ok), Q|assumption]|constructor; assumption].
Qed.
Lemma distinct_app l l' a b : distinct c (l ++ l') -> In a l -> In b l' -> ~ keq c a b.
Proof.
  unfold distinct. induction l as [|x l IH]; intros H Ha Hb; [destruct Ha|]. inversion_clear H as [|? ? A B].
  destruct Ha as [->|Ha]; [|apply IH; assumption]. rewrite Forall_forall in A. apply A, in_app_iff. right; exact Hb.
Qed.
Lemma distinct_vals (l : list (bytes * bytes)) k v k' v' : distinct c (map fst l) -> In (k, v) l -> In (k', v') l -> keq c k k' -> v = v'.
Proof.
  unfold distinct. induction l as [|[x w] l IH]; intros H Ha Hb E; [destruct Ha|]. cbn [map fst] in H. inversion_clear H as [|? ? A B].
  rewrite Forall_forall in A.
  destruct Ha as [Ha|Ha], Hb as [Hb|Hb].
  - congruence.
  - injection Ha as -> ->. exfalso. apply (A k'); [apply (in_map fst _ _ Hb)|exact E].
  - injection Hb as -> ->. exfalso. apply (A k); [apply (in_map fst _ _ Ha)|apply (keq_sym ok), E].
  - apply IH; assumption.
Qed.
Lemma keq_in_dec y (l : list bytes) : (exists k, In k l /\ keq c y k) \/ (forall k, In k l -> ~ keq c y k).
Proof.
  induction l as [|x l [(k & A & B)|IH]]; [right; intros ? []|left; exists k; split; [right|]; assumption|].
  destruct (keqb c y x) eqn:E; [left; exists x; split; [left; reflexivity|apply keqb_true, E]|].
  right. intros k [<-|H]; [apply keqb_false, E|apply IH, H].
Qed.
Lemma replaced_unique f f1 f2 old new y : replaced c f f1 old new -> replaced c f f2 old new -> f1 y = f2 y.
Proof.
  intros (A1 & A2 & A3) (B1 & B2 & B3).
  destruct (keq_in_dec y (map fst new)) as [(k & H & E)|H].
  - apply in_map_iff in H as ([k' v] & H1 & H2). cbn in H1; subst k'. rewrite (A1 k v y H2 E), (B1 k v y H2 E). reflexivity.
  - assert (N : forall k v, In (k, v) new -> ~ keq c y k) by (intros k v Hi; apply H, (in_map fst _ _ Hi)).
    destruct (keq_in_dec y old) as [H2|H2]; [rewrite A2, B2 by assumption; reflexivity|rewrite A3, B3 by assumption; reflexivity].
Qed.
End D.

Section T.
Context (e : menv) (ok : forall d, cmp_ok (e_cmp e d)).

Lemma wall_rows_ext l : forall s s', m_rows s = m_rows s' -> m_rows (wall e s l) = m_rows (wall e s' l).
Proof.
  induction l as [|[[d k] o] l IH]; intros s s' H; [exact H|]. cbn [wall fold_left]. apply IH.
  destruct o; cbn [wapply put_row del_row m_rows]; rewrite H; reflexivity.
Qed.
Lemma wop_dec d y (l : list wop) : (exists k o, In (d, k, o) l /\ keq (e_cmp e d) y k) \/ (forall k o, In (d, k, o) l -> ~ keq (e_cmp e d) y k).
Proof.
  induction l as [|[[d1 k1] o1] l IH]; [right; intros ? ? []|].
  destruct IH as [(k' & o' & H1 & H2)|IH]; [left; exists k', o'; split; [right|]; assumption|].
  destruct (Nat.eq_dec d d1) as [<-|Hne].
  - destruct (keqb (e_cmp e d) y k1) eqn:Ek.
    + left. exists k1, o1. split; [left; reflexivity|]. apply keqb_true, Ek.
    + right. intros k' o' [H|H]; [|exact (IH k' o' H)]. injection H as <- <-. apply keqb_false, Ek.
  - right. intros k' o' [H|H]; [congruence|exact (IH k' o' H)].
Qed.

(** ** Deleting [A], then putting [B], does what is to be done *)
Lemma covers s l1 l2 d (O : list bytes) (N : list (bytes * bytes)) D M P S (A : list bytes) (B : list (bytes * bytes)) :
  squished e d O N D M P S -> distinct (e_cmp e d) O -> distinct (e_cmp e d) (map fst N) ->
  (forall y z, keq (e_cmp e d) y z -> m_rows s d y = m_rows s d z) ->
  (forall k, In (k, []) N -> In k O -> m_rows s d k = Some []) ->
  (forall k o, In (d, k, o) l1 <-> o = None /\ In k A) ->
  (forall k o, In (d, k, o) l2 <-> exists v, o = Some v /\ In (k, v) B) ->
  incl D A -> incl A O -> incl P B -> incl B N ->
  (forall k v, In (k, v) S -> In (k, v) B \/ (forall k', In k' A -> ~ keq (e_cmp e d) k k')) ->
  replaced (e_cmp e d) (m_rows s d) (m_rows (wall e (wall e s l1) l2) d) O N.
Proof.
  intros Sq DO DN Rs Sk H1 H2 DA AO PB BN HS. pose proof (ok d) as okd. destruct Sq as [Q1 Q2 Q3 Q4].
  assert (NP : forall k v, In (k, v) N -> In (k, v) P \/ In (k, v) S) by (intros k v H; apply in_app_iff; eapply Permutation_in; eauto).
  assert (InB : forall k v y, In (k, v) B -> keq (e_cmp e d) y k -> m_rows (wall e (wall e s l1) l2) d y = Some v).
  { intros k v y Hb E. apply (wall_in e _ _ _ _ k).
    - apply H2. exists v. split; [reflexivity|exact Hb].
    - exact E.
    - intros k' o' Hi E'. apply H2 in Hi as (v' & -> & Hi). f_equal.
      apply (distinct_vals okd N k' v' k v); auto. eapply (keq_tr okd); [apply (keq_sym okd), E'|exact E]. }
  assert (OutB : forall y, (forall k v, In (k, v) B -> ~ keq (e_cmp e d) y k) -> m_rows (wall e (wall e s l1) l2) d y = m_rows (wall e s l1) d y).
  { intros y H. apply wall_out. intros k o Hi. apply H2 in Hi as (v & -> & Hi). eapply H; eauto. }
  assert (OutA : forall y, (forall k, In k A -> ~ keq (e_cmp e d) y k) -> m_rows (wall e s l1) d y = m_rows s d y).
  { intros y H. apply wall_out. intros k o Hi. apply H1 in Hi as (-> & Hi). eapply H; eauto. }
  assert (InA : forall y k, In k A -> keq (e_cmp e d) y k -> m_rows (wall e s l1) d y = None).
  { intros y k Hi E. apply (wall_in e _ _ _ _ k); [apply H1; auto|exact E|]. intros k' o' Hi' _. apply H1 in Hi' as [-> _]. reflexivity. }
  split; [|split].
  - intros k v y Hn E. destruct (keq_in_dec (c := e_cmp e d) y (map fst B)) as [(k' & Hb & E')|Hb].
    + apply in_map_iff in Hb as ([k2 v2] & E2 & Hb). cbn in E2; subst k2.
      rewrite (InB k' v2 y Hb E'). f_equal. apply (distinct_vals okd N k' v2 k v); auto.
      eapply (keq_tr okd); [apply (keq_sym okd), E'|exact E].
    + assert (Nb : forall k v, In (k, v) B -> ~ keq (e_cmp e d) y k) by (intros k' v' Hi; apply Hb, (in_map fst _ _ Hi)).
      rewrite OutB by exact Nb.
      destruct (NP k v Hn) as [Hp|Hs]; [exfalso; exact (Nb k v (PB _ Hp) E)|].
      destruct (HS k v Hs) as [Hb'|Ha]; [exfalso; exact (Nb k v Hb' E)|].
      rewrite OutA.
      * destruct (Q4 k v Hs) as [-> Hm]. rewrite (Rs y k E). apply Sk; [exact Hn|].
        eapply Permutation_in; [symmetry; exact Q1|]. apply in_app_iff; right; exact Hm.
      * intros k' Hk' E'. apply (Ha k' Hk'). eapply (keq_tr okd); [apply (keq_sym okd), E|exact E'].
  - intros y Nn (k & Ho & E). rewrite OutB by (intros k' v' Hi; apply (Nn k' v'), BN, Hi).
    apply (InA y k); [|exact E]. apply DA.
    assert (H : In k (D ++ M)) by (eapply Permutation_in; [exact Q1|exact Ho]). apply in_app_iff in H as [H|H]; [exact H|].
    destruct (Q3 k H) as (k' & v & Hn & E'). exfalso. apply (Nn k' v Hn). eapply (keq_tr okd); eauto.
  - intros y Nn No. rewrite OutB by (intros k' v' Hi; apply (Nn k' v'), BN, Hi).
    apply OutA. intros k Hk. apply No, AO, Hk.
Qed.

(** ** update_multiple *)
Definition udel (d : nat) (D : list bytes) : list (nat * list bytes) := match D with [] => [] | _ => [(d, D)] end.
Definition uput (d : nat) (D : list bytes) (P S : list (bytes * bytes)) : list (nat * list (bytes * bytes) * rest) :=
  match P, D, S with [], [], _ => [] | [], _, [] => [] | _, _, _ => [(d, P, FNone)] end.

Section Up.
Context (src : option nat) (okey ov nk nv : bytes).
Inductive ufacts (s : mst) : list (nat * flags) -> list (nat * list bytes) -> list (nat * list (bytes * bytes) * rest) -> Prop :=
| uf_nil : ufacts s [] [] []
| uf_cons d fl dbs a b Ro New D M P S :
    rows_of e src d okey ov = Some Ro -> rows_of e src d nk nv = Some New ->
    squished e d (map fst Ro) New D M P S -> uheld e d fl s D P ->
    ufacts s dbs a b -> ufacts s ((d, fl) :: dbs) (udel d D ++ a) (uput d D P S ++ b).

Lemma upd_prepare_facts dbs : forall s dels puts s' r dels' puts',
  upd_prepare e s src okey ov nk nv dbs dels puts = ((s', r), (dels', puts')) ->
  calm s s' /\
  match r with
  | Some x => x <> EBug
  | None => exists a b, dels' = dels ++ a /\ puts' = puts ++ b /\ ufacts s' dbs a b
  end.
Proof.
  induction dbs as [|[d fl] dbs IH]; intros s dels puts s' r dels' puts'; cbn [upd_prepare].
  - intros [= <- <- <- <-]. split; [apply calm_refl|]. exists [], []. rewrite !app_nil_r. repeat split. constructor.
  - replace (if same_src src d then Some [okey] else option_map (map fst) (e_put e d src okey ov)) with (option_map (map fst) (rows_of e src d okey ov))
      by (unfold rows_of, same_src; destruct (match src with Some x => x =? d | None => false end); reflexivity).
    change (if same_src src d then Some [(nk, nv)] else e_put e d src nk nv) with (rows_of e src d nk nv).
    destruct (rows_of e src d okey ov) as [Ro|] eqn:E1; cbn [option_map];
      [destruct (rows_of e src d nk nv) as [New|] eqn:E2|].
    2,3: intros [= <- <- <- <-]; split; [apply calm_refl|discriminate].
    destruct (uloop e _ s d fl _) as [s1 [x|u]] eqn:El; apply uloop_squished in El as (C & El).
    + intros [= <- <- <- <-]. split; assumption.
    + destruct El as (D & M & P & S & Sq & Hh & ->). intros Q.
      apply IH in Q as (C2 & Q). split; [eapply calm_trans; eauto|].
      destruct r as [x|]; [exact Q|]. destruct Q as (a & b & -> & -> & F).
      exists (udel d D ++ a), (uput d D P S ++ b). rewrite <- !app_assoc. repeat split.
      econstructor; eauto. destruct Hh as [H1 H2]. split; intros; eapply held_calm; eauto.
Qed.
Lemma ufacts_dom s dbs a b : ufacts s dbs a b ->
  (forall d ks, In (d, ks) a -> In d (map fst dbs)) /\ (forall d kvs, In (d, kvs) (map fst b) -> In d (map fst dbs)) /\ Forall (fun p => snd p = FNone) b.
Proof.
  induction 1 as [|d fl dbs a b Ro New D M P S E1 E2 Sq Hh F (I1 & I2 & I3)]; [repeat split; [intros ? ? []|intros ? ? []|constructor]|].
  repeat split.
  - intros d' ks H. apply in_app_iff in H as [H|H]; [left|right; eauto]. destruct D; [destruct H|destruct H as [[= <- <-]|[]]; reflexivity].
  - intros d' ks H. rewrite map_app in H. apply in_app_iff in H as [H|H]; [left|right; eauto].
    destruct P, D, S; cbn in H; destruct H as [[= <- <-]|[]] || destruct H; reflexivity.
  - apply Forall_app. split; [|exact I3]. destruct P, D, S; repeat constructor.
Qed.
Lemma ufacts_entry s dbs a b d fl : ufacts s dbs a b -> NoDup (map fst dbs) -> In (d, fl) dbs ->
  exists Ro New D M P S, rows_of e src d okey ov = Some Ro /\ rows_of e src d nk nv = Some New /\
    squished e d (map fst Ro) New D M P S /\
    (forall ks, In (d, ks) a <-> In (d, ks) (udel d D)) /\ (forall kvs, In (d, kvs) (map fst b) <-> In (d, kvs) (map fst (uput d D P S))).
Proof.
  induction 1 as [|d0 fl0 dbs a b Ro New D M P S E1 E2 Sq Hh F IH]; intros ND Hi; [destruct Hi|].
  cbn [map fst] in ND. inversion_clear ND as [|? ? N1 N2]. destruct (ufacts_dom _ _ _ _ F) as (F1 & F2 & _).
  destruct Hi as [[= -> ->]|Hi].
  - exists Ro, New, D, M, P, S. split; [exact E1|split; [exact E2|split; [exact Sq|split; intros ks; split]]].
    + intros H. apply in_app_iff in H as [H|H]; [exact H|]. exfalso. apply N1. eauto.
    + intros H. apply in_app_iff; left; exact H.
    + intros H. rewrite map_app in H. apply in_app_iff in H as [H|H]; [exact H|]. exfalso. apply N1. eauto.
    + intros H. rewrite map_app. apply in_app_iff; left; exact H.
  - destruct (IH N2 Hi) as (Ro' & New' & D' & M' & P' & S' & A1 & A2 & A3 & A4 & A5).
    assert (Ne : d0 <> d) by (intros ->; apply N1, (in_map fst _ _ Hi)).
    exists Ro', New', D', M', P', S'. split; [exact A1|split; [exact A2|split; [exact A3|split]]].
    + intros ks. rewrite <- A4, in_app_iff. split; [intros [H|H]; [|exact H]|intros H; right; exact H].
      destruct D; [destruct H|destruct H as [[= <- <-]|[]]]. congruence.
    + intros ks. rewrite <- A5, map_app, in_app_iff. split; [intros [H|H]; [|exact H]|intros H; right; exact H].
      destruct P, D, S; cbn in H; try destruct H as [[= <- <-]|[]]; try destruct H; congruence.
Qed.
Lemma ufacts_held s dbs a b : ufacts s dbs a b ->
  (forall d ks k, In (d, ks) a -> In k ks -> exists fl, In (d, fl) dbs /\ held e s d fl k) /\
  (forall d kvs k v, In (d, kvs) (map fst b) -> In (k, v) kvs -> exists fl, In (d, fl) dbs /\ held e s d fl k).
Proof.
  induction 1 as [|d0 fl0 dbs a b Ro New D M P S E1 E2 Sq (HD & HP) F (I1 & I2)]; [split; [intros ? ? ? []|intros ? ? ? ? []]|].
  split.
  - intros d ks k H Hk. apply in_app_iff in H as [H|H].
    + exists fl0. assert (d = d0 /\ ks = D) as [-> ->] by (destruct D; [destruct H|destruct H as [[= <- <-]|[]]; auto]). split; [left; reflexivity|auto].
    + destruct (I1 d ks k H Hk) as (fl & A & B). exists fl. split; [right|]; assumption.
  - intros d kvs k v H Hk. rewrite map_app in H. apply in_app_iff in H as [H|H].
    + exists fl0. assert (d = d0 /\ kvs = P) as [-> ->] by (destruct P, D, S; cbn in H; try destruct H as [[= <- <-]|[]]; try destruct H; auto).
      split; [left; reflexivity|]. eapply HP, Hk.
    + destruct (I2 d kvs k v H Hk) as (fl & A & B). exists fl. split; [right|]; assumption.
Qed.

Lemma update_shape s dbs n m s' r : update_multiple e s src okey ov nk nv dbs n m = (s', r) ->
  r <> Some EBug /\
  match r with
  | Some _ => calm s s'
  | None => exists s1 a b rd rp, calm s s1 /\ ufacts s1 dbs a b /\
      m_rows s' = m_rows (wall e (wall e s (wdel a)) (wput (map fst b))) /\ m_locks s' = m_locks s1 /\
      m_log s' = m_log s ++ rd ++ rp /\
      (rd = singles a \/ rd = [LDelMulti src (map fst a) okey ov]) /\
      rp = match map (fun p => fst (fst p)) b with [] => [] | ds => [LPutMulti src ds nk nv] end
  end.
Proof.
  unfold update_multiple. destruct (_ || _); [intros [= <- <-]; split; [discriminate|apply calm_refl]|].
  destruct (upd_prepare e s src okey ov nk nv dbs [] []) as [[s1 r1] [a b]] eqn:E. apply upd_prepare_facts in E as (C & E).
  destruct r1 as [x|]; [intros [= <- <-]; split; [congruence|exact C]|].
  destruct E as (a' & b' & Ea & Eb & F). cbn [app] in Ea, Eb. subst a' b'. intros Q.
  set (s2 := match a with [] => s1 | _ => do_del e (log_del e s1 src okey ov a) a end) in Q.
  assert (H2 : exists rd, s2 = wall e (mkMst (m_rows s1) (m_locks s1) (m_log s1 ++ rd)) (wdel a) /\ (rd = singles a \/ rd = [LDelMulti src (map fst a) okey ov])).
  { unfold s2. destruct a as [|p a]; [exists []; split; [rewrite app_nil_r; destruct s1; reflexivity|left; reflexivity]|].
    destruct (log_del_shape e s1 src okey ov (p :: a)) as (rd & -> & Hrd). exists rd. rewrite do_del_wall. split; [reflexivity|tauto]. }
  destruct H2 as (rd & Es2 & Hrd). clearbody s2.
  pose proof (proj2 (proj2 (ufacts_dom _ _ _ _ F))) as FN.
  assert (R : (s', r) = (wall e (match map (fun p => fst (fst p)) b with [] => s2 | ds => log_rec s2 (LPutMulti src ds nk nv) end) (wput (map fst b)), None)).
  { rewrite <- Q. destruct b as [|p b]; [reflexivity|]. rewrite do_put_none by exact FN. reflexivity. }
  injection R as -> ->. split; [discriminate|].
  exists s1, a, b, rd, (match map (fun p => fst (fst p)) b with [] => [] | ds => [LPutMulti src ds nk nv] end).
  destruct C as (C1 & C2 & C3).
  split; [repeat split; assumption|]. split; [exact F|].
  assert (Rows : m_rows s2 = m_rows (wall e s (wdel a))) by (rewrite Es2; apply wall_rows_ext; cbn [m_rows]; exact C1).
  assert (Lk : m_locks s2 = m_locks s1) by (rewrite Es2, wall_locks; reflexivity).
  assert (Lg : m_log s2 = m_log s ++ rd) by (rewrite Es2, wall_log; cbn [m_log]; rewrite C2; reflexivity).
  repeat split; [| | |exact Hrd].
  - apply wall_rows_ext. destruct (map _ b); exact Rows.
  - rewrite wall_locks. destruct (map _ b); exact Lk.
  - rewrite wall_log. destruct (map _ b); cbn [log_rec m_log]; rewrite Lg, ?app_nil_r, ?app_assoc; reflexivity.
Qed.

Context (s : mst) (dbs : list (nat * flags)).
(** What the theorems ask of the arguments. *)
Definition upd_args : Prop :=
  NoDup (map fst dbs) /\
  forall d fl Ro New, In (d, fl) dbs -> rows_of e src d okey ov = Some Ro -> rows_of e src d nk nv = Some New ->
    distinct (e_cmp e d) (map fst Ro) /\ distinct (e_cmp e d) (map fst New) /\
    (forall y z, keq (e_cmp e d) y z -> m_rows s d y = m_rows s d z) /\
    (forall k, In (k, []) New -> In k (map fst Ro) -> m_rows s d k = Some []).

Lemma in_udel d D ks : In (d, ks) (udel d D) <-> ks = D /\ D <> [].
Proof.
  destruct D; cbn; [split; [intros []|intros [_ H]; congruence]|].
  split; [intros [[= <-]|[]]; split; congruence|intros [-> _]; left; reflexivity].
Qed.
Lemma in_uput d D P S kvs : In (d, kvs) (map fst (uput d D P S)) <-> kvs = P /\ (P <> [] \/ (D <> [] /\ S <> [])).
Proof.
  destruct P, D, S; cbn; (split; [intros H; try destruct H as [[= <-]|[]]; try destruct H|intros [-> H]]).
  all: try (split; [reflexivity|]); try tauto; try (left; congruence); try (right; split; congruence); try (left; reflexivity).
  all: destruct H as [H|[H1 H2]]; congruence.
Qed.

Lemma update_live n m s' : upd_args -> update_multiple e s src okey ov nk nv dbs n m = (s', None) ->
  forall d, match in_dec Nat.eq_dec d (map fst dbs) with
  | left _ => exists Ro New, rows_of e src d okey ov = Some Ro /\ rows_of e src d nk nv = Some New /\
      replaced (e_cmp e d) (m_rows s d) (m_rows s' d) (map fst Ro) New
  | right _ => forall y, m_rows s' d y = m_rows s d y
  end.
Proof.
  intros (ND & Ar) Q. apply update_shape in Q as (_ & s1 & a & b & rd & rp & C & F & Rw & _). intros d.
  destruct (in_dec Nat.eq_dec d (map fst dbs)) as [Hd|Hd].
  - apply in_map_iff in Hd as ([d' fl] & Ed & Hd). cbn in Ed; subst d'.
    destruct (ufacts_entry _ _ _ _ _ _ F ND Hd) as (Ro & New & D & M & P & S & E1 & E2 & Sq & A4 & A5).
    exists Ro, New. split; [exact E1|split; [exact E2|]]. rewrite Rw.
    destruct (Ar d fl Ro New Hd E1 E2) as (B1 & B2 & B3 & B4).
    apply (covers s (wdel a) (wput (map fst b)) d _ _ D M P S D P); auto using incl_refl.
    + intros k o. rewrite in_wdel. split.
      * intros (-> & ks & H1 & H2). apply A4, in_udel in H1 as [-> _]. auto.
      * intros (-> & H). split; [reflexivity|]. exists D. split; [apply A4, in_udel; split; [reflexivity|intros ->; destruct H]|exact H].
    + intros k o. rewrite in_wput. split.
      * intros (v & kvs & -> & H1 & H2). apply A5, in_uput in H1 as [-> _]. eauto.
      * intros (v & -> & H). exists v, P. split; [reflexivity|]. split; [apply A5, in_uput; split; [reflexivity|left; intros ->; destruct H]|exact H].
    + intros k H. eapply Permutation_in; [symmetry; apply Sq|]. apply in_app_iff; left; exact H.
    + intros k H. eapply Permutation_in; [symmetry; apply (sq_new _ _ _ _ _ _ _ _ Sq)|]. apply in_app_iff; left; exact H.
    + intros k v H. right. intros k' Hk' E. destruct (sq_S _ _ _ _ _ _ _ _ Sq k v H) as [_ Hm].
      apply (distinct_app (c := e_cmp e d) D M k' k); [|exact Hk'|exact Hm|apply (keq_sym (ok d)), E].
      eapply (distinct_perm (ok d)); [apply Sq|exact B1].
  - intros y. rewrite Rw. destruct (ufacts_dom _ _ _ _ F) as (F1 & F2 & _).
    rewrite wall_out; [apply wall_out|].
    + intros k o H. apply in_wdel in H as (_ & ks & H & _). exfalso; eauto.
    + intros k o H. apply in_wput in H as (v & kvs & _ & H & _). exfalso; eauto.
Qed.

(** Recovery's callback makes the same keys of the old row. *)
Definition del_as_put : Prop := forall d fl Ro, In (d, fl) dbs -> rows_of e src d okey ov = Some Ro ->
  exists ks, keys_of e src d okey ov = Some ks /\ forall k, In k ks <-> In k (map fst Ro).

Lemma gather_dels (ds : list nat) : (forall d, In d ds -> exists ks, keys_of e src d okey ov = Some ks) ->
  exists l, map fst l = ds /\ Forall (fun p => keys_of e src (fst p) okey ov = Some (snd p)) l.
Proof.
  induction ds as [|d ds IH]; intros H; [exists []; split; [reflexivity|constructor]|].
  destruct (H d (or_introl eq_refl)) as (ks & E). destruct IH as (l & <- & F); [intros; apply H; right; assumption|].
  exists ((d, ks) :: l). split; [reflexivity|constructor; assumption].
Qed.
Lemma gather_puts (ds : list nat) : (forall d, In d ds -> exists ks, rows_of e src d nk nv = Some ks) ->
  exists l, map fst l = ds /\ Forall (fun p => rows_of e src (fst p) nk nv = Some (snd p)) l.
Proof.
  induction ds as [|d ds IH]; intros H; [exists []; split; [reflexivity|constructor]|].
  destruct (H d (or_introl eq_refl)) as (ks & E). destruct IH as (l & <- & F); [intros; apply H; right; assumption|].
  exists ((d, ks) :: l). split; [reflexivity|constructor; assumption].
Qed.

Lemma update_replay n m s' : upd_args -> del_as_put -> update_multiple e s src okey ov nk nv dbs n m = (s', None) ->
  exists l t, m_log s' = m_log s ++ l /\ replay e s l = Some t /\ forall d y, m_rows t d y = m_rows s' d y.
Proof.
  intros Ar Dp Q. pose proof (update_live _ _ _ Ar Q) as Live. destruct Ar as (ND & Ar).
  apply update_shape in Q as (_ & s1 & a & b & rd & rp & C & F & Rw & _ & Lg & Hrd & Hrp).
  destruct (ufacts_dom _ _ _ _ F) as (F1 & F2 & _).
  exists (rd ++ rp).
  (* what recovery deletes *)
  assert (A : exists a', replay e s rd = Some (wall e s (wdel a')) /\ map fst a' = map fst a /\
                (a' = a \/ Forall (fun p => keys_of e src (fst p) okey ov = Some (snd p)) a')).
  { destruct Hrd as [->| ->]; [exists a; rewrite replay_singles; auto|].
    destruct (gather_dels (map fst a)) as (a' & E & Fa).
    - intros d Hd. apply in_map_iff in Hd as ([d' ks] & Ed & Hd). cbn in Ed; subst d'.
      pose proof (F1 d ks Hd) as Hdb. apply in_map_iff in Hdb as ([d' fl] & Ed & Hdb). cbn in Ed; subst d'.
      destruct (ufacts_entry _ _ _ _ _ _ F ND Hdb) as (Ro & _ & _ & _ & _ & _ & E1 & _).
      destruct (Dp d fl Ro Hdb E1) as (ks' & E & _). eauto.
    - exists a'. split; [|split; [exact E|right; exact Fa]]. cbn [replay replay1]. rewrite <- E, replay_dels_wall by exact Fa. reflexivity. }
  destruct A as (a' & Ra & Fa & Ha).
  assert (B : exists b', (forall x, replay e x rp = Some (wall e x (wput b'))) /\ map fst b' = map fst (map fst b) /\
                Forall (fun p => rows_of e src (fst p) nk nv = Some (snd p)) b').
  { destruct (gather_puts (map fst (map fst b))) as (b' & E & Fb).
    - intros d Hd. apply in_map_iff in Hd as ([d' ks] & Ed & Hd). cbn in Ed; subst d'.
      pose proof (F2 d ks Hd) as Hdb. apply in_map_iff in Hdb as ([d' fl] & Ed & Hdb). cbn in Ed; subst d'.
      destruct (ufacts_entry _ _ _ _ _ _ F ND Hdb) as (_ & New & _ & _ & _ & _ & _ & E2 & _). eauto.
    - exists b'. split; [|split; [exact E|exact Fb]]. intros x. rewrite Hrp. rewrite map_map in E.
      rewrite <- E. destruct b' as [|p b']; [reflexivity|]. change (match map fst (p :: b') with [] => [] | ds => [LPutMulti src ds nk nv] end) with [LPutMulti src (map fst (p :: b')) nk nv].
      cbn [replay replay1]. rewrite replay_puts_wall by exact Fb. reflexivity. }
  destruct B as (b' & Rb & Fb & Hb).
  exists (wall e (wall e s (wdel a')) (wput b')). split; [exact Lg|]. split; [rewrite replay_app, Ra; apply Rb|].
  intros d y. specialize (Live d). destruct (in_dec Nat.eq_dec d (map fst dbs)) as [Hd|Hd].
  - apply in_map_iff in Hd as ([d' fl] & Ed & Hd). cbn in Ed; subst d'.
    destruct (ufacts_entry _ _ _ _ _ _ F ND Hd) as (Ro & New & D & M & P & S & E1 & E2 & Sq & A4 & A5).
    destruct Live as (Ro' & New' & E1' & E2' & Live). rewrite E1' in E1. rewrite E2' in E2. injection E1 as ->. injection E2 as ->.
    destruct (Ar d fl Ro New Hd E1' E2') as (B1 & B2 & B3 & B4).
    destruct (Dp d fl Ro Hd E1') as (ks & Eks & Hks).
    assert (InA : In d (map fst a) <-> D <> []).
    { split.
      - intros H. apply in_map_iff in H as ([d' x] & Ed & H). cbn in Ed; subst d'. apply A4, in_udel in H. tauto.
      - intros H. apply (in_map fst _ (d, D)). apply A4, in_udel. auto. }
    assert (InB : In d (map fst (map fst b)) <-> (P <> [] \/ (D <> [] /\ S <> []))).
    { split.
      - intros H. apply in_map_iff in H as ([d' x] & Ed & H). cbn in Ed; subst d'. apply A5, in_uput in H. tauto.
      - intros H. apply (in_map fst _ (d, P)). apply A5, in_uput. auto. }
    assert (HA : exists A, (forall k o, In (d, k, o) (wdel a') <-> o = None /\ In k A) /\ incl D A /\ incl A (map fst Ro) /\ (incl A D \/ D <> [])).
    { destruct Ha as [->|Ha].
      - exists D. split; [|split; [apply incl_refl|split; [|left; apply incl_refl]]].
        + intros k o. rewrite in_wdel. split.
          * intros (-> & ks' & H1 & H2). apply A4, in_udel in H1 as [-> _]. auto.
          * intros (-> & H). split; [reflexivity|]. exists D. split; [apply A4, in_udel; split; [reflexivity|intros ->; destruct H]|exact H].
        + intros k H. eapply Permutation_in; [symmetry; apply Sq|]. apply in_app_iff; left; exact H.
      - rewrite Forall_forall in Ha. destruct D as [|k0 D].
        + exists []. split; [|split; [apply incl_refl|split; [intros k []|left; apply incl_refl]]].
          intros k o. rewrite in_wdel. split; [|intros [_ []]]. intros (_ & ks' & H1 & _). exfalso.
          apply (in_map fst) in H1. cbn [fst] in H1. rewrite Fa in H1. apply InA in H1. congruence.
        + exists ks. split; [|split; [|split; [intros k H; apply Hks, H|right; discriminate]]].
          * intros k o. rewrite in_wdel. split.
            -- intros (-> & ks' & H1 & H2). apply Ha in H1. cbn [fst snd] in H1. rewrite Eks in H1. injection H1 as ->. auto.
            -- intros (-> & H). split; [reflexivity|]. exists ks. split; [|exact H].
               assert (Hi : In d (map fst a')) by (rewrite Fa; apply InA; discriminate).
               apply in_map_iff in Hi as ([d' x] & Ed & Hi). cbn in Ed; subst d'. pose proof (Ha _ Hi) as Hx. cbn [fst snd] in Hx. rewrite Eks in Hx. injection Hx as ->. exact Hi.
          * intros k H. apply Hks. eapply Permutation_in; [symmetry; apply Sq|]. apply in_app_iff; left; exact H. }
    destruct HA as (A & A1 & A2 & A3 & A6).
    assert (HB : exists B, (forall k o, In (d, k, o) (wput b') <-> exists v, o = Some v /\ In (k, v) B) /\ incl P B /\ incl B New /\ (incl New B \/ ~ (P <> [] \/ (D <> [] /\ S <> [])))).
    { rewrite Forall_forall in Hb. assert (Dec : {In d (map fst b')} + {~ In d (map fst b')}) by apply in_dec, Nat.eq_dec. destruct Dec as [Hi|Hi].
      - exists New. split; [|split; [|split; [apply incl_refl|left; apply incl_refl]]].
        + intros k o. rewrite in_wput. split.
          * intros (v & kvs & -> & H1 & H2). apply Hb in H1. cbn [fst snd] in H1. rewrite E2' in H1. injection H1 as ->. eauto.
          * intros (v & -> & H). exists v, New. split; [reflexivity|]. split; [|exact H].
            apply in_map_iff in Hi as ([d' x] & Ed & Hi). cbn in Ed; subst d'. pose proof (Hb _ Hi) as Hx. cbn [fst snd] in Hx. rewrite E2' in Hx. injection Hx as ->. exact Hi.
        + intros k H. eapply Permutation_in; [symmetry; apply (sq_new _ _ _ _ _ _ _ _ Sq)|]. apply in_app_iff; left; exact H.
      - rewrite Fb in Hi. exists []. rewrite InB in Hi. split; [|split; [|split; [intros k []|right; exact Hi]]].
        + intros k o. rewrite in_wput. split; [|intros (v & _ & [])]. intros (v & kvs & _ & H & _). exfalso. apply Hi, InB. rewrite <- Fb. apply (in_map fst _ _ H).
        + destruct P as [|p P]; [intros k []|]. exfalso. apply Hi. left. discriminate. }
    destruct HB as (B & B5 & B6 & B7 & B8).
    refine (replaced_unique _ _ _ _ _ y _ Live).
    apply (covers s (wdel a') (wput b') d _ _ D M P S A B); auto.
    intros k v H. destruct B8 as [B8|B8].
    + left. apply B8. eapply Permutation_in; [symmetry; apply (sq_new _ _ _ _ _ _ _ _ Sq)|]. apply in_app_iff; right; exact H.
    + assert (D = []) as ->. { destruct D; [reflexivity|]. exfalso. apply B8. right. split; [discriminate|]. intros ->. destruct H. }
      right. intros k' Hk'. destruct A6 as [A6|A6]; [destruct (A6 _ Hk')|congruence].
  - rewrite Live. rewrite wall_out; [apply wall_out|].
    + intros k o H. apply in_wdel in H as (_ & ks & H & _). exfalso. apply (in_map fst) in H. cbn [fst] in H. rewrite Fa in H.
      apply in_map_iff in H as ([d' x] & Ed & H). cbn in Ed; subst d'. eauto.
    + intros k o H. apply in_wput in H as (v & kvs & _ & H & _). exfalso. apply (in_map fst) in H. cbn [fst] in H. rewrite Fb in H.
      apply in_map_iff in H as ([d' x] & Ed & H). cbn in Ed; subst d'. eauto.
Qed.
End Up.
End T.
