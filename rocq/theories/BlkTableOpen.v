(** A new block table, and one read from disk, satisfy the invariant. *)
From Verif Require Import Base MhsModel MhsHoles BlkAllocModel BlkAllocProofs BlkTableModel BlkTableProofs
  TransCodecProofs BlkTableInv.
From Coq Require Import Permutation.
Open Scope Z_scope.

Lemma bt_create_ok sm : exists s, bt_create = Some s /\ bt_inv sm [] s /\ dirty_inv s /\
  b_ip s = None /\ (forall i, refs (b_cur s) i = None) /\ (forall i, refs (b_cp s) i = None) /\
  (forall i, (3 <= i)%nat -> ent (b_cur s) i = None) /\ t_snub (b_cur s) = 3.
Proof.
  destruct (ba_create_ok 8192 4096 ltac:(lia) eq_refl ltac:(lia) ltac:(lia)) as (a & E & I).
  unfold bt_create. cbv [copy_trans RESERVED t_snub t_len t_arr repeat length Z.of_nat Z.leb Z.compare Pos.compare Pos.compare_cont].
  change (set (firstn (Z.to_nat 3) [mkP diskoff_unused 0; mkP diskoff_unused 0; mkP diskoff_unused 0]) B_TRANS (mkP diskoff_unused 0))
    with (Some [unalloc; unalloc; unalloc]).
  cbn [t_head]. unfold TOTAL_RESERVE, BALIGN. rewrite E. eexists; split; [reflexivity|].
  set (t := mkT 3 freelist_null [unalloc; unalloc; unalloc]).
  change (mkT 3 freelist_null [mkP diskoff_unused 0; mkP diskoff_unused 0; mkP diskoff_unused 0]) with t.
  assert (Et : forall i p, ent t i = Some p -> p = unalloc /\ (i < 3)%nat).
  { intros i p. unfold ent, t. cbn [t_arr]. destruct i as [|[|[|i]]]; cbn; intros H; try (injection H as <-; split; [reflexivity|lia]).
    destruct i; discriminate. }
  assert (W : swf t).
  { constructor.
    - unfold t, t_len. cbn. lia.
    - intros i p H. apply Et in H. destruct H as (-> & _). right. left. reflexivity.
    - intros i p H _. apply Et in H. destruct H as (-> & _). unfold is_free, unalloc, size_is_free. cbn. lia.
    - intros i p H H'. apply Et in H. unfold snub, t in H'. cbn in H'. lia.
    - exists []. split; [reflexivity|]. split; [constructor|]. intros i. split; [intros []|].
      intros (_ & p & H & F). apply Et in H. destruct H as (-> & _). unfold is_free, unalloc, size_is_free in F. cbn in F. lia. }
  assert (R : forall i, refs t i = None).
  { intros i. rewrite refs_at. destruct (ent t i) as [p|] eqn:H; auto. apply Et in H. destruct H as (-> & _). reflexivity. }
  cbn [b_cur b_ip b_cp b_skip b_ba h_dirty ch_dirty].
  split; [|split; [|repeat split; auto]].
  - constructor; unfold trs; cbn [b_cur b_ip b_cp b_skip b_ba h_dirty ch_dirty]; auto; try discriminate.
    + intros u [<-|[<-|[]]]; (split; auto; intros i e; rewrite R; discriminate).
    + intros _ u [<-|[<-|[]]]; unfold t; cbn; lia.
    + intros _ x [].
  - constructor; cbn [b_cur b_ip b_cp b_skip b_ba h_dirty ch_dirty]; try discriminate.
    intros _ _ i _. now rewrite !R.
  - intros i Hi. destruct (ent t i) as [p|] eqn:H; auto. apply Et in H. lia.
Qed.

(** The extents of a translation, with their block numbers. *)
Fixpoint owned_of (i : nat) (l : list pair) : owned :=
  match l with
  | [] => []
  | p :: l' => if 0 <? p_size p then (i, (Z.to_N (p_off p), Z.to_N (p_size p))) :: owned_of (S i) l' else owned_of (S i) l'
  end.
Lemma owned_of_in : forall l i j e, In (j, e) (owned_of i l) <->
  (i <= j)%nat /\ exists p, nth_error l (j - i) = Some p /\ 0 < p_size p /\ e = (Z.to_N (p_off p), Z.to_N (p_size p)).
Proof.
  induction l as [|p l IH]; intros i j e; cbn [owned_of].
  - split; [intros []|]. intros (_ & p & H & _). destruct (j - i)%nat; discriminate.
  - assert (X : (In (j, e) (owned_of (S i) l) \/ (j = i /\ 0 < p_size p /\ e = (Z.to_N (p_off p), Z.to_N (p_size p)))) <->
      (i <= j)%nat /\ exists q, nth_error (p :: l) (j - i) = Some q /\ 0 < p_size q /\ e = (Z.to_N (p_off q), Z.to_N (p_size q))).
    { rewrite IH. split.
      - intros [(H & q & H1 & H2)|(-> & H1 & H2)].
        + split; [lia|]. exists q. replace (j - i)%nat with (S (j - S i)) by lia. cbn. auto.
        + split; [lia|]. exists p. rewrite Nat.sub_diag. cbn. auto.
      - intros (H & q & H1 & H2 & H3). destruct (Nat.eq_dec j i) as [->|Hn].
        + rewrite Nat.sub_diag in H1. cbn in H1. injection H1 as <-. auto.
        + left. split; [lia|]. replace (j - i)%nat with (S (j - S i)) in H1 by lia. cbn in H1. eauto. }
    rewrite <- X. destruct (Z.ltb_spec 0 (p_size p)) as [H|H]; cbn [In].
    + split; [intros [Q|Q]; [injection Q as <- <-|]; auto|]. intros [Q|(-> & _ & ->)]; auto.
    + split; auto. intros [Q|(_ & Q & _)]; auto. lia.
Qed.
Lemma owned_of_disj s A : binv s A -> forall l i, (forall x, In x (owned_of i l) -> In x A) -> pdisj (map snd (owned_of i l)).
Proof.
  intros I. induction l as [|p l IH]; intros i H; cbn [owned_of] in *; [exact Logic.I|].
  destruct (Z.ltb_spec 0 (p_size p)) as [Hp|Hp]; [|apply IH; auto].
  cbn [map snd pdisj]. split; [|apply IH; intros; apply H; cbn; auto].
  apply Forall_forall. intros e He. apply in_map_iff in He. destruct He as ((j & e') & <- & He). cbn [snd].
  destruct (N.le_gt_cases (ext_end e') (Z.to_N (p_off p))) as [C|C]; [unfold disj; right; auto|].
  destruct (N.le_gt_cases (ext_end (Z.to_N (p_off p), Z.to_N (p_size p))) (fst e')) as [C'|C']; [left; auto|].
  exfalso. destruct (owned_uniq s A i (Z.to_N (p_off p), Z.to_N (p_size p)) j e' I) as (Q & _).
  - apply H. cbn; auto.
  - apply H. cbn; auto.
  - unfold disj. cbn [fst] in *. lia.
  - subst j. apply owned_of_in in He. lia.
Qed.
Lemma gather_ok s A : binv s A -> forall l i, (forall x, In x (owned_of i l) -> In x A) ->
  (forall p, In p l -> pair_ok p) -> gather l = Some (map snd (owned_of i l)).
Proof.
  intros I. induction l as [|p l IH]; intros i H P; cbn [owned_of gather] in *; [reflexivity|].
  destruct (Z.ltb_spec 0 (p_size p)) as [Hp|Hp].
  - rewrite (IH (S i)) by (intros; first [apply H; right; assumption | apply P; right; assumption]).
    assert (Hi : In (i, (Z.to_N (p_off p), Z.to_N (p_size p))) A) by (apply H; cbn; auto).
    pose proof (owned_good _ _ _ _ I Hi) as (G1 & G2 & G3 & G4). unfold ext_end, LIM in *. cbn [fst snd] in *.
    assert (0 <= p_off p).
    { destruct (P p) as [F|[F|F]]; cbn; auto; [unfold is_free, size_is_free in F; lia|subst p; cbn in Hp; lia|lia]. }
    unfold diskoff_unused. destruct (Z.eqb_spec (p_off p) (-2)); [lia|]. cbn [negb].
    rewrite !u64_small by lia. reflexivity.
  - rewrite (IH (S i)) by (intros; first [apply H; assumption | apply P; right; assumption]). reflexivity.
Qed.

Theorem bt_open_ok (sm : Prop) A s t : binv s A -> swf t -> covers A t -> length (t_arr t) = snub t -> refs t 1 <> None ->
  (sm -> t_snub t <= 8192) ->
  exists s' A', bt_open t = Some s' /\ bt_inv sm A' s' /\ dirty_inv s' /\ (forall x, In x A' -> In x A) /\
    b_ip s' = None /\ b_cp s' = t /\ (forall i, i <> 1%nat -> refs (b_cur s') i = refs t i) /\
    b_skip s' = false /\ h_dirty s' = false.
Proof.
  intros I W C Hl R1 Hsm. unfold bt_open.
  destruct (copy_ok _ W) as (cur & Ec & Wc & Sc & Lc & Ei). rewrite Ec.
  assert (Hf : firstn (Z.to_nat (t_snub t)) (t_arr t) = t_arr t).
  { apply firstn_all2. unfold snub in Hl. lia. }
  rewrite Hf. set (A' := owned_of 0 (t_arr t)).
  assert (RA : forall i e, refs t i = Some e <-> In (i, e) A').
  { intros i e. unfold A'. rewrite owned_of_in, Nat.sub_0_r. unfold refs, ent. split.
    - destruct (nth_error (t_arr t) i) as [p|]; [|discriminate]. destruct (Z.ltb_spec 0 (p_size p)); [|discriminate].
      intros Q. injection Q as <-. split; [lia|]. exists p. auto.
    - intros (_ & p & -> & Hp & ->). destruct (Z.ltb_spec 0 (p_size p)); [auto|lia]. }
  assert (Sub : forall x, In x A' -> In x A) by (intros (i & e) Hx; apply C, RA; auto).
  rewrite (gather_ok s A I (t_arr t) 0) by (auto; intros p Hp; destruct (In_nth_error _ _ Hp) as (i & Hi); apply (sw_pair _ W i); exact Hi).
  fold A'.
  destruct (create_from_pairs_ok 8192 4096 ltac:(lia) eq_refl ltac:(lia) ltac:(lia) (map snd A')) as (a & Ea & Ia).
  { intros Q. apply R1. destruct (refs t 1) as [e|] eqn:E1; auto. apply RA in E1. destruct A'; [destruct E1|discriminate]. }
  { apply Forall_forall. intros e He. apply in_map_iff in He. destruct He as ((i & e') & <- & He).
    eapply owned_good; eauto. }
  { eapply owned_of_disj; eauto. }
  unfold TOTAL_RESERVE, BALIGN. rewrite Ea. eexists _, A'. split; [reflexivity|].
  cbn [b_cur b_ip b_cp b_skip b_ba h_dirty ch_dirty].
  assert (Rc : forall i, i <> 1%nat -> refs cur i = refs t i).
  { intros i Hi. rewrite !refs_at, Ei. destruct (Nat.eqb_spec i 1); [contradiction|].
    destruct (Nat.ltb_spec i (snub t)) as [|G]; auto. destruct (ent t i) as [p|] eqn:Ep; auto.
    pose proof (sw_high _ W _ _ Ep G) as F. unfold is_free, size_is_free in F. rewrite F. reflexivity. }
  assert (E1 : ent cur 1 = Some unalloc) by (rewrite Ei; reflexivity).
  split; [|split; [|repeat split; auto]].
  - constructor; unfold trs; cbn [b_cur b_ip b_cp b_skip b_ba h_dirty ch_dirty]; auto; try discriminate.
    + intros u [<-|[<-|[]]].
      * split; auto. intros i e Hr. apply RA. rewrite <- Rc; auto. intros ->. rewrite refs_at, E1 in Hr. discriminate.
      * split; auto. intros i e Hr. now apply RA.
    + intros S u [<-|[<-|[]]]; rewrite ?Sc; auto.
    + intros S (i & e) Hx. exists t. split; [cbn; auto|]. cbn. now apply RA.
  - constructor; cbn [b_cur b_ip b_cp b_skip b_ba h_dirty ch_dirty]; try discriminate.
    intros _ _ i Hi. now apply Rc.
Qed.
