(** The logs of the specification are the saves of the history, in order. *)
From Verif Require Import Base Bytes LogModel RbModel RbSpec RbProofs RbInv RbSteps.
Open Scope N_scope.

(** [anc A u v]: u is a proper ancestor of the live transaction v. *)
Inductive anc (A : astate) (u : nat) : nat -> Prop :=
| anc_parent v a : A v = Some a -> a_parent a = Some u -> anc A u v
| anc_up v a w : A v = Some a -> a_parent a = Some w -> anc A u w -> anc A u v.

(** No entry of an ancestor comes after an entry of a descendant. *)
Definition after_ok (A : astate) (x y : nat * rentry) : Prop := ~ anc A (fst y) (fst x).
Record hinv (A : astate) (H : history) : Prop := {
  i_log : forall id a, A id = Some a -> a_log a = entries_of id H;
  i_live : Forall (fun x => A (fst x) <> None) H;
  i_ord : ForallOrdPairs (after_ok A) H;
  i_par : forall id a p, A id = Some a -> a_parent a = Some p -> A p <> None /\ p <> id;
  i_one : forall u v a b p, A u = Some a -> A v = Some b -> a_parent a = Some p -> a_parent b = Some p -> u = v
}.

Lemma anc_no_child A u v : no_child A u -> ~ anc A u v.
Proof. intros NC H. induction H; [eapply NC; eauto|exact IHanc]. Qed.
Lemma anc_live_v A u v : anc A u v -> A v <> None.
Proof. destruct 1; congruence. Qed.
Lemma anc_live_u A u v : (forall id a p, A id = Some a -> a_parent a = Some p -> A p <> None /\ p <> id) ->
  anc A u v -> A u <> None.
Proof. intros HP H. induction H; [eapply HP; eauto|exact IHanc]. Qed.
(** Only parents matter. *)
Lemma anc_ext A B u v : (forall w, option_map a_parent (A w) = option_map a_parent (B w)) -> anc A u v -> anc B u v.
Proof.
  intros E H. induction H as [v a HA HP|v a w HA HP H IH]; specialize (E v); rewrite HA in E; cbn in E;
    destruct (B v) as [b|] eqn:HB; try discriminate; injection E as E.
  - eapply anc_parent; [exact HB|congruence].
  - eapply anc_up; [exact HB| |exact IH]. congruence.
Qed.

Lemma FOP_app {X} (R : X -> X -> Prop) l x : ForallOrdPairs R l -> Forall (fun y => R y x) l -> ForallOrdPairs R (l ++ [x]).
Proof.
  induction 1 as [|a l HF HO IH]; intros F; cbn [app].
  - constructor; [constructor|constructor].
  - inversion F; subst. constructor; [|apply IH; assumption]. apply Forall_app. split; [exact HF|repeat constructor; assumption].
Qed.
Lemma FOP_impl {X} (R S : X -> X -> Prop) (P : X -> Prop) l :
  (forall x y, P x -> P y -> R x y -> S x y) -> Forall P l -> ForallOrdPairs R l -> ForallOrdPairs S l.
Proof.
  intros HI F O. induction O as [|a l HF HO IH]; [constructor|]. inversion F; subst. constructor; [|apply IH; assumption].
  rewrite Forall_forall in *. intros y IN. apply HI; auto.
Qed.
Lemma FOP_map {X Y} (R : Y -> Y -> Prop) (f : X -> Y) l : ForallOrdPairs (fun x y => R (f x) (f y)) l -> ForallOrdPairs R (map f l).
Proof.
  induction 1 as [|a l HF HO IH]; cbn [map]; constructor; [|exact IH]. rewrite Forall_map. exact HF.
Qed.
Lemma FOP_filter {X} (R : X -> X -> Prop) f (l : list X) : ForallOrdPairs R l -> ForallOrdPairs R (filter f l).
Proof.
  induction 1 as [|a l HF HO IH]; cbn [filter]; [constructor|]. destruct (f a); [|exact IH]. constructor; [|exact IH].
  rewrite Forall_forall in *. intros y IN. apply filter_In in IN as [IN _]. auto.
Qed.

Definition relabel (id pid : nat) (H : history) : history :=
  map (fun x => (if Nat.eqb (fst x) id then pid else fst x, snd x)) H.
Lemma entries_app id H K : entries_of id (H ++ K) = entries_of id H ++ entries_of id K.
Proof. unfold entries_of. now rewrite filter_app, map_app. Qed.
Lemma entries_relabel_other id pid u H : u <> pid -> u <> id -> entries_of u (relabel id pid H) = entries_of u H.
Proof.
  intros N1 N2. unfold entries_of, relabel. induction H as [|[i e] H IH]; [reflexivity|]. cbn [map filter fst snd].
  destruct (Nat.eqb_spec i id) as [E|NE].
  - destruct (Nat.eqb_spec pid u); [congruence|]. destruct (Nat.eqb_spec i u); [congruence|]. exact IH.
  - destruct (Nat.eqb i u); cbn [map snd]; [f_equal|]; exact IH.
Qed.
Lemma entries_none id H : Forall (fun x => fst x <> id) H -> entries_of id H = [].
Proof.
  unfold entries_of. induction 1 as [|[i e] H HX HF IH]; [reflexivity|]. cbn [filter fst] in *.
  destruct (Nat.eqb_spec i id); [contradiction|]. exact IH.
Qed.
(** All entries of the child come after those of the parent. *)
Lemma entries_relabel_par id pid H : pid <> id ->
  ForallOrdPairs (fun x y => ~ (fst x = id /\ fst y = pid)) H ->
  entries_of pid (relabel id pid H) = entries_of pid H ++ entries_of id H.
Proof.
  intros NE. induction 1 as [|[i e] H HF HO IH]; [reflexivity|].
  change (relabel id pid ((i, e) :: H)) with ((if Nat.eqb i id then pid else i, e) :: relabel id pid H).
  unfold entries_of in *. cbn [filter fst]. destruct (Nat.eqb_spec i id) as [->|NI].
  - rewrite Nat.eqb_refl. destruct (Nat.eqb_spec id pid); [congruence|]. cbn [map snd]. rewrite IH.
    fold (entries_of pid H). rewrite entries_none; [reflexivity|]. eapply Forall_impl; [|exact HF]. cbn. tauto.
  - destruct (Nat.eqb i pid); cbn [map snd app]; [f_equal|]; exact IH.
Qed.

Lemma entries_filter_other id u H : u <> id -> entries_of u (filter (fun x => negb (Nat.eqb (fst x) id)) H) = entries_of u H.
Proof.
  intros NE. unfold entries_of. induction H as [|[i e] H IH]; [reflexivity|]. cbn [filter fst].
  destruct (Nat.eqb_spec i id) as [->|NI]; cbn [negb filter fst].
  - destruct (Nat.eqb_spec id u); [congruence|]. exact IH.
  - destruct (Nat.eqb i u); cbn [map snd]; [f_equal|]; exact IH.
Qed.

Lemma hstep_inv A H s o A' out : hinv A H -> allowed A s o -> one_child A o -> astep A o = Some (A', out) ->
  hinv A' (hstep A H o).
Proof.
  intros [IL IV IO IP I1] AL OC ST. destruct o as [id x p|id e b|id f1 f2|id fuel]; cbn [astep hstep] in *.
  - injection ST as <- <-. destruct AL as [NL PL].
    assert (NC : no_child A id) by (intros u a HA HP; destruct (IP u a id HA HP); congruence).
    assert (KEEP : forall v a, A v = Some a -> aset A id (Some (mkA p [])) v = Some a).
    { intros v a HA. rewrite aset_other; congruence. }
    constructor.
    + intros u a HA. unfold aset in HA. destruct (Nat.eqb_spec u id) as [->|]; [|auto]. injection HA as <-. cbn.
      symmetry. apply entries_none. eapply Forall_impl; [|exact IV]. cbn. intros y HY E. congruence.
    + eapply Forall_impl; [|exact IV]. cbn. intros y HY. unfold aset. destruct (Nat.eqb _ _); [discriminate|exact HY].
    + eapply FOP_impl; [|exact IV|exact IO]. cbn. unfold after_ok. intros a b LA LB NA C. apply NA. clear NA.
      assert (G : forall u v, anc (aset A id (Some (mkA p []))) u v -> A v <> None -> anc A u v).
      { intros u v C'. induction C' as [v a' HA HP|v a' w HA HP C' IH]; intros LV';
          (rewrite aset_other in HA by (intros ->; contradiction)).
        - eapply anc_parent; eauto.
        - eapply anc_up; eauto. apply IH. apply (IP v a' w HA HP). }
      apply G; [exact C|exact LA].
    + intros u a q HA HP. unfold aset in HA. destruct (Nat.eqb_spec u id) as [->|NU].
      * injection HA as <-. cbn in HP. subst p. destruct PL as [PL NE]. split; [rewrite aset_other; auto|exact NE].
      * destruct (IP u a q HA HP) as [LQ NE]. split; [|exact NE]. unfold aset. destruct (Nat.eqb q id); [discriminate|exact LQ].
    + intros u v a b q HA HB PA PB. unfold aset in HA, HB.
      destruct (Nat.eqb_spec u id) as [EU|NU], (Nat.eqb_spec v id) as [EV|NV]; try congruence.
      * injection HA as <-. cbn in PA. subst p. exfalso. eapply OC; eauto.
      * injection HB as <-. cbn in PB. subst p. exfalso. eapply OC; eauto.
      * eapply I1; eauto.
  - destruct (A id) as [a0|] eqn:AA; [|discriminate]. injection ST as <- <-.
    set (A' := aset A id (Some (mkA (a_parent a0) (a_log a0 ++ [e])))).
    assert (EX : forall w, option_map a_parent (A w) = option_map a_parent (A' w)).
    { intros w. unfold A', aset. destruct (Nat.eqb_spec w id) as [->|]; [now rewrite AA|reflexivity]. }
    assert (LV : forall w, A w <> None -> A' w <> None).
    { intros w. unfold A', aset. destruct (Nat.eqb w id); [discriminate|auto]. }
    constructor.
    + intros u a HA. rewrite entries_app. unfold A', aset in HA. destruct (Nat.eqb_spec u id) as [->|NU].
      * injection HA as <-. cbn [a_log]. rewrite (IL id a0 AA). f_equal. unfold entries_of. cbn. now rewrite Nat.eqb_refl.
      * rewrite (IL u a HA). unfold entries_of. cbn. destruct (Nat.eqb_spec id u); [congruence|]. cbn. now rewrite app_nil_r.
    + apply Forall_app. split; [eapply Forall_impl; [|exact IV]; cbn; auto|]. repeat constructor. apply LV. cbn. congruence.
    + apply FOP_app.
      * eapply FOP_impl; [|exact IV|exact IO]. cbn. unfold after_ok. intros u v _ _ NA C. apply NA.
        eapply anc_ext; [|exact C]. intros w. symmetry. apply EX.
      * eapply Forall_impl; [|exact IV]. cbn. unfold after_ok. intros y _ C. cbn [fst] in C.
        apply (anc_no_child A id (fst y) OC). eapply anc_ext; [|exact C]. intros w. symmetry. apply EX.
    + intros u a q HA HP. assert (E := EX u). rewrite HA in E. destruct (A u) as [au|] eqn:AU; [|discriminate].
      injection E as E. destruct (IP u au q AU) as [LQ NE]; [congruence|]. auto.
    + intros u v a b' q HA HB PA PB. assert (E1 := EX u). assert (E2 := EX v). rewrite HA in E1. rewrite HB in E2.
      destruct (A u) as [au|] eqn:AU; [|discriminate]. destruct (A v) as [av|] eqn:AV; [|discriminate].
      injection E1 as E1. injection E2 as E2. eapply (I1 u v au av q); congruence.
  - destruct AL as (NC & _ & _). destruct (A id) as [a0|] eqn:AA; [|discriminate]. destruct a0 as [[pid|] lg] eqn:A0; [|discriminate].
    cbn [a_parent a_log] in ST. destruct (A pid) as [p0|] eqn:PP; [|discriminate]. injection ST as <- <-.
    destruct (IP id _ pid AA eq_refl) as [_ PNE].
    fold (relabel id pid H). set (A' := aset (aset A pid (Some (mkA (a_parent p0) (a_log p0 ++ lg)))) id None).
    assert (EX : forall w, w <> id -> option_map a_parent (A' w) = option_map a_parent (A w)).
    { intros w NW. unfold A', aset. destruct (Nat.eqb_spec w id); [contradiction|]. destruct (Nat.eqb_spec w pid) as [->|]; [now rewrite PP|reflexivity]. }
    assert (AN : forall u v, anc A' u v -> anc A u v).
    { intros u v C. induction C as [v a HA HP|v a w HA HP C IH].
      - assert (NV : v <> id) by (intros ->; unfold A' in HA; rewrite aset_same in HA; discriminate).
        assert (E := EX v NV). rewrite HA in E. destruct (A v) as [av|] eqn:AV; [|discriminate]. injection E as E.
        eapply anc_parent; [exact AV|congruence].
      - assert (NV : v <> id) by (intros ->; unfold A' in HA; rewrite aset_same in HA; discriminate).
        assert (E := EX v NV). rewrite HA in E. destruct (A v) as [av|] eqn:AV; [|discriminate]. injection E as E.
        eapply anc_up; [exact AV| |exact IH]. congruence. }
    assert (NCP : no_child A' pid).
    { intros u a HA HP. assert (NU : u <> id) by (intros ->; unfold A' in HA; rewrite aset_same in HA; discriminate).
      assert (E := EX u NU). rewrite HA in E. destruct (A u) as [au|] eqn:AU; [|discriminate]. injection E as E.
      apply NU. eapply (I1 u id au _ pid); eauto. congruence. }
    constructor.
    + intros u a HA. destruct (Nat.eqb_spec u id) as [->|NU]; [unfold A' in HA; rewrite aset_same in HA; discriminate|].
      unfold A' in HA. rewrite aset_other in HA by exact NU. destruct (Nat.eqb_spec u pid) as [->|NP].
      * rewrite aset_same in HA. injection HA as <-. cbn [a_log].
        rewrite entries_relabel_par; [rewrite (IL pid p0 PP); f_equal; exact (IL id _ AA)|exact PNE|].
        eapply FOP_impl with (P := fun _ => True); [|apply Forall_forall; auto|exact IO]. unfold after_ok. cbn.
        intros u v _ _ NA [EU EV]. apply NA. rewrite EU, EV. eapply anc_parent; [exact AA|reflexivity].
      * rewrite aset_other in HA by exact NP. rewrite entries_relabel_other by assumption. auto.
    + unfold relabel. rewrite Forall_map. eapply Forall_impl; [|exact IV]. cbn. intros [u e] LU. cbn [fst] in *.
      unfold A'. destruct (Nat.eqb_spec u id) as [->|NU].
      * rewrite aset_other by exact PNE. rewrite aset_same. discriminate.
      * rewrite aset_other by exact NU. unfold aset. destruct (Nat.eqb u pid); [discriminate|exact LU].
    + apply FOP_map. eapply FOP_impl with (P := fun _ => True); [|apply Forall_forall; auto|exact IO]. unfold after_ok. cbn.
      intros [u e] [v e'] _ _ NA C. cbn [fst] in *.
      destruct (Nat.eqb_spec v id) as [EV|NV]; [exact (anc_no_child _ _ _ NCP C)|].
      destruct (Nat.eqb_spec u id) as [EU|NU]; [|apply NA, AN, C].
      apply NA. rewrite EU. eapply anc_up; [exact AA|reflexivity|]. apply AN. exact C.
    + intros u a q HA HP. assert (NU : u <> id) by (intros ->; unfold A' in HA; rewrite aset_same in HA; discriminate).
      assert (E := EX u NU). rewrite HA in E. destruct (A u) as [au|] eqn:AU; [|discriminate]. injection E as E.
      destruct (IP u au q AU) as [LQ NE]; [congruence|]. split; [|exact NE].
      assert (NQ : q <> id) by (intros ->; apply (NC u au AU); congruence).
      unfold A'. rewrite aset_other by exact NQ. unfold aset. destruct (Nat.eqb q pid); [discriminate|exact LQ].
    + intros u v a b q HA HB PA PB.
      assert (NU : u <> id) by (intros ->; unfold A' in HA; rewrite aset_same in HA; discriminate).
      assert (NV : v <> id) by (intros ->; unfold A' in HB; rewrite aset_same in HB; discriminate).
      assert (E1 := EX u NU). assert (E2 := EX v NV). rewrite HA in E1. rewrite HB in E2.
      destruct (A u) as [au|] eqn:AU; [|discriminate]. destruct (A v) as [av|] eqn:AV; [|discriminate].
      injection E1 as E1. injection E2 as E2. eapply (I1 u v au av q); congruence.
  - destruct AL as [NC LV]. destruct (A id) as [a0|] eqn:AA; [|discriminate]. injection ST as <- <-.
    assert (KP : forall v a, aset A id None v = Some a -> v <> id /\ A v = Some a).
    { intros v a. unfold aset. destruct (Nat.eqb_spec v id); [discriminate|auto]. }
    constructor.
    + intros u a HA. apply KP in HA as [NU HA]. rewrite entries_filter_other by exact NU. auto.
    + apply Forall_forall. intros y IN. apply filter_In in IN as [IN NE]. rewrite Forall_forall in IV. specialize (IV y IN).
      apply Bool.negb_true_iff, Nat.eqb_neq in NE. now rewrite aset_other.
    + apply FOP_filter. eapply FOP_impl with (P := fun _ => True); [|apply Forall_forall; auto|exact IO]. unfold after_ok.
      intros u v _ _ NA C. apply NA. clear -C KP. induction C as [v' a HA HP|v' a w HA HP C IH]; apply KP in HA as [NV HA].
      * eapply anc_parent; eauto.
      * eapply anc_up; eauto.
    + intros u a q HA HP. apply KP in HA as [NU HA]. destruct (IP u a q HA HP) as [LQ NE]. split; [|exact NE].
      rewrite aset_other; [exact LQ|]. intros ->. exact (NC u a HA HP).
    + intros u v a b q HA HB. apply KP in HA as [NU HA]. apply KP in HB as [NV HB]. eapply I1; eauto.
Qed.

Theorem hrun_inv cmax w s A H : hrun cmax w s A H -> reached cmax w s A /\ hinv A H.
Proof.
  induction 1 as [|s A H o s' A' out out' R [RE IH] AL OC ST AS].
  - split; [apply rr_nil|]. constructor; try discriminate; constructor.
  - split; [eapply rr_step; eassumption|]. eapply hstep_inv; eassumption.
Qed.
