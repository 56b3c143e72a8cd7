(** C41: the fragmentation report. *)
From Coq Require Import List NArith ZArith Lia Permutation Sorted.
From Verif Require Import Base Bytes MhsModel MhsProofs MhsHoles BlkAllocModel BlkAllocProofs BlkSpec
  BlkTableModel BlkTableProofs TransCodecModel TransCodecProofs BlkTableInv FtDiskModel FtDiskSpec FtDiskInv FtDiskProofs FtDiskRun FtDiskExec PropsAlloc PropsDisk.
Open Scope N_scope.

(** The unused regions of a file in which the extents [es] are in use: maximal, in order, and
    covering exactly the bytes between the headers and the last extent that are not in use. *)
Definition unused_regions (reserve : N) (es : list (N * N)) (rs : list (N * N)) : Prop :=
  StronglySorted (fun r q => fst r + snd r < fst q) rs /\ Forall (fun r => 0 < snd r) rs /\
  forall b, in_some b rs <-> reserve <= b /\ ~ in_some b es /\ exists e, In e es /\ b < fst e + snd e.
(** The part of a region that can be given out: it starts at a multiple of [al]. *)
Definition giveable (al : N) (r : N * N) : N := fst r + snd r - (fst r + al - 1) / al * al.
Definition nonzero (l : list N) : list N := filter (fun n => 0 <? n) l.
Definition sum_of (l : list N) : N := fold_right N.add 0 l.

Section A.
Variables reserve al : N.
Hypothesis P : params reserve al.
Let P1 : 512 <= al := proj1 P.
Let P2 : al mod 512 = 0 := proj1 (proj2 P).
Let P3 : al <= 2 ^ 32 := proj1 (proj2 (proj2 P)).
Let P4 : reserve <= 2 ^ 32 := proj2 (proj2 (proj2 P)).
Let al2 : 2 <= al. Proof. clear - P1. lia. Qed.

Definition reg (h : hole) : N * N := (h_off h, h_size h).

(** One finite hole. *)
Lemma vis_one a es h u : ainv reserve al a es -> In h (holes (a_tree a)) -> h_size h <> MAXV ->
  vis_unused al (Some u) h = Some (if 0 <? giveable al (reg h)
     then mkU (u64 (u_bytes u + giveable al (reg h))) (u64 (u_blocks u + 1))
              (if u_largest u <? giveable al (reg h) then giveable al (reg h) else u_largest u) else u).
Proof.
  intros I Hi Hs. pose proof (hole_end_aligned reserve al P1 P2 P3 P4 _ _ _ I Hi Hs) as M.
  assert (V : valid reserve h).
  { destruct I. destruct ai_sep as [V _]. rewrite Forall_forall in V; auto. }
  destruct V as (V1 & V2 & V3 & V4).
  pose proof (align_least al al2 P3 (h_off h) (h_off h + h_size h) ltac:(lia) ltac:(lia) M) as AL.
  assert (EA : align (h_off h) al = (h_off h + al - 1) / al * al).
  { unfold align, u64. rewrite N.mod_small; [reflexivity|]. unfold LIM in *. lia. }
  unfold vis_unused. unfold oadd.
  destruct (N.eqb_spec (h_off h) MAXV) as [C|_]; [unfold LIM, MAXV in *; lia|].
  destruct (N.eqb_spec (h_size h) MAXV) as [C|_]; [congruence|]. cbn [orb].
  destruct (N.leb_spec (h_size h) (MAXV - h_off h)); [|unfold LIM, MAXV in *; lia].
  unfold osub. change (ba_align (h_off h) al) with (align (h_off h) al).
  destruct (N.eqb_spec (align (h_off h) al) MAXV) as [C|_]; [unfold LIM, MAXV in *; lia|]. cbn [negb].
  destruct (N.eqb_spec (h_off h + h_size h) MAXV) as [C|_]; [unfold LIM, MAXV in *; lia|].
  destruct (N.leb_spec (align (h_off h) al) (h_off h + h_size h)); [|lia].
  unfold giveable, reg. cbn [fst snd]. rewrite <- EA. destruct (0 <? _); reflexivity.
Qed.

Lemma vis_all a es : ainv reserve al a es -> forall hs u,
  (forall h, In h hs -> In h (holes (a_tree a)) /\ h_size h <> MAXV) -> u_bytes u < 2 ^ 64 -> u_blocks u < 2 ^ 64 ->
  exists v, fold_left (vis_unused al) hs (Some u) = Some v /\
    u_blocks v = u64 (u_blocks u + N.of_nat (length (nonzero (map (giveable al) (map reg hs))))) /\
    u_bytes v = u64 (u_bytes u + sum_of (map (giveable al) (map reg hs))).
Proof.
  intros I hs. induction hs as [|h hs IH]; intros u H B1 B2; cbn [fold_left map].
  - exists u. split; auto. cbn. unfold u64. rewrite !N.add_0_r, !N.mod_small; auto.
  - destruct (H h) as (Hi & Hs); [cbn; auto|]. rewrite (vis_one a es h u I Hi Hs).
    destruct (N.ltb_spec 0 (giveable al (reg h))) as [G|G].
    + destruct (IH (mkU (u64 (u_bytes u + giveable al (reg h))) (u64 (u_blocks u + 1))
              (if u_largest u <? giveable al (reg h) then giveable al (reg h) else u_largest u))) as (v & E & Hb & Hy).
      { intros k Hk. apply H. cbn; auto. }
      { cbn [u_bytes]. unfold u64. apply N.mod_lt. lia. }
      { cbn [u_blocks]. unfold u64. apply N.mod_lt. lia. }
      exists v. split; [exact E|]. cbn [u_bytes u_blocks] in *. unfold nonzero in *. cbn [filter].
      destruct (N.ltb_spec 0 (giveable al (reg h))); [|lia]. cbn [length sum_of fold_right].
      unfold sum_of in *. rewrite Hb, Hy. unfold u64. rewrite !N.add_mod_idemp_l by lia. split; f_equal; lia.
    + destruct (IH u) as (v & E & Hb & Hy); auto.
      { intros k Hk. apply H. cbn; auto. }
      exists v. split; [exact E|]. unfold nonzero in *. cbn [filter].
      destruct (N.ltb_spec 0 (giveable al (reg h))); [lia|]. unfold sum_of in *. cbn [fold_right]. rewrite Hb, Hy.
      split; f_equal; lia.
Qed.

Lemma report_ok a es data ckpt : ainv reserve al a es -> reserve + total es = data + ckpt -> data + ckpt < 2 ^ 64 ->
  exists rs u, unused_regions reserve es rs /\ unused_statistics a data ckpt = Some u /\
    u_blocks u = u64 (N.of_nat (length (nonzero (map (giveable al) rs))) + 1) /\
    u_bytes u = u64 (sum_of (map (giveable al) rs) + (2 ^ 64 - 1)) /\ u_largest u = 2 ^ 64 - 1.
Proof.
  intros I T B. destruct (inf_hole reserve al P1 P2 P3 P4 _ _ I) as (hs & L & E1 & E2 & E3 & E4).
  exists (map reg hs).
  destruct (unused_statistics_ok reserve al P1 P2 P3 P4 a es data ckpt I) as (U1 & U2).
  destruct (unused_statistics a data ckpt) as [u|] eqn:EU.
  2: { exfalso. apply U1; auto. unfold u64. rewrite N.mod_small; auto. }
  exists u. split; [|split; [reflexivity|]].
  - pose proof (ai_sep _ _ _ _ I) as Sp. pose proof (ai_free _ _ _ _ I) as F. pose proof (ai_good _ _ _ _ I) as G.
    rewrite E1 in Sp, F. destruct Sp as (V & Ss). rewrite Forall_forall in V, G.
    assert (Bel : forall b, b < L -> (exists e, In e es /\ b < fst e + snd e) \/ ~ (reserve <= b /\ L <= b)) by (intros; right; lia).
    assert (LL : L = reserve \/ exists e, In e es /\ fst e + snd e = L).
    { destruct (limit_ok reserve al P1 P2 P3 P4 a es I) as (L' & X1 & X2 & X3 & X4). assert (L' = L) by congruence. subst L'. auto. }
    assert (LU : forall e, In e es -> fst e + snd e <= L).
    { destruct (limit_ok reserve al P1 P2 P3 P4 a es I) as (L' & X1 & X2 & X3 & X4). assert (L' = L) by congruence. subst L'. auto. }
    apply ss_app in Ss. destruct Ss as (Ss & _ & _).
    split; [|split].
    + clear - Ss. induction Ss as [|h hs S IH H]; cbn [map]; constructor; auto.
      rewrite Forall_forall in *. intros r Hr. apply in_map_iff in Hr. destruct Hr as (k & <- & Hk). apply (H k Hk).
    + apply Forall_forall. intros r Hr. apply in_map_iff in Hr. destruct Hr as (k & <- & Hk).
      destruct (V k) as (_ & _ & V3 & _); [apply in_or_app; auto|exact V3].
    + intros b. specialize (F b). split.
      * intros (r & Hr & Hb). apply in_map_iff in Hr. destruct Hr as (k & <- & Hk). cbn [reg fst snd] in Hb.
        destruct F as (F & _). destruct F as (F1 & F2).
        { exists k. split; [apply in_or_app; auto|]. split; [lia|right; lia]. }
        destruct (E4 k Hk) as (_ & E5). split; auto. split; [now rewrite <- used_in|].
        destruct LL as [->|(e & He & Eq)]; [lia|]. exists e. split; auto. lia.
      * intros (H1 & H2 & e & He & Hb). destruct F as (_ & F). destruct F as (k & Hk & Hin); [rewrite used_in; auto|].
        pose proof (LU e He). apply in_app_or in Hk. destruct Hk as [Hk|[<-|[]]].
        -- exists (reg k). split; [apply in_map; auto|]. destruct (E4 k Hk) as (E5 & _). destruct Hin as (I1 & [I2|I2]); [contradiction|].
           cbn [reg fst snd]. lia.
        -- exfalso. destruct Hin as (I1 & _). cbn [h_off] in I1. lia.
  - assert (EU' := EU). unfold unused_statistics in EU'. rewrite (bytes_exact reserve al P1 P2 P3 P4 _ _ I) in EU'.
    rewrite T in EU'. destruct (N.eqb_spec (data + ckpt) (u64 (data + ckpt))) as [_|N]; [|discriminate].
    rewrite in_order_fold, E1, fold_left_app in EU'. rewrite (ai_al _ _ _ _ I) in EU'.
    destruct (vis_all a es I hs (mkU 0 0 0)) as (v & Ev & Hb & Hy); [|cbn; lia|cbn; lia|].
    { intros h Hh. split; [rewrite E1; apply in_or_app; auto|]. now apply E4. }
    rewrite Ev in EU'. cbn [fold_left] in EU'. unfold vis_unused, oadd in EU'. cbn [h_off h_size] in EU'.
    rewrite N.eqb_refl, orb_true_r in EU'. unfold osub in EU'. change (ba_align L al) with (align L al) in EU'.
    pose proof (align_ge al al2 P3 L ltac:(lia)).
    destruct (N.eqb_spec (align L al) MAXV) as [C|_]; [unfold LIM, MAXV in *; lia|]. cbn [negb] in EU'.
    rewrite N.eqb_refl in EU'. destruct (N.ltb_spec 0 MAXV) as [_|C]; [|unfold MAXV in C; lia].
    assert (Eu : u_blocks u = u64 (u_blocks v + 1) /\ u_bytes u = u64 (u_bytes v + MAXV)) by (injection EU' as <-; split; reflexivity).
    destruct Eu as (-> & ->). rewrite Hb, Hy. cbn [u_blocks u_bytes]. unfold u64. rewrite !N.add_0_l, !N.add_mod_idemp_l by lia.
    split; [reflexivity|]. split; [reflexivity|now apply U2].
Qed.
End A.

(** * What get_fragmentation counts as data and as additional checkpoint data *)

Fixpoint ixs (exc : nat -> pair -> bool) (i : nat) (l : list pair) : owned :=
  match l with
  | [] => []
  | p :: l' => (if ((0 <? p_size p)%Z && negb (exc i p))%bool then [(i, (Z.to_N (p_off p), Z.to_N (p_size p)))] else []) ++ ixs exc (S i) l'
  end.
Lemma ixs_In exc j e : forall l i, In (j, e) (ixs exc i l) <-> exists k p, j = (i + k)%nat /\ nth_error l k = Some p /\
  (0 < p_size p)%Z /\ exc j p = false /\ e = (Z.to_N (p_off p), Z.to_N (p_size p)).
Proof.
  induction l as [|p l IH]; intros i; cbn [ixs].
  - split; [intros []|]. intros (k & p & _ & E & _). destruct k; discriminate.
  - rewrite in_app_iff, IH. split.
    + intros [H|(k & q & E1 & E2 & E3)].
      * destruct (Z.ltb_spec 0 (p_size p)) as [G|G]; cbn [andb] in H; [|destruct H].
        destruct (exc i p) eqn:X; cbn [negb] in H; [destruct H|]. destruct H as [H|[]]. injection H as <- <-.
        exists O, p. repeat split; auto; try lia.
      * exists (S k), q. repeat split; try apply E3; auto. lia.
    + intros (k & q & E1 & E2 & E3 & E4 & E5). destruct k as [|k]; cbn [nth_error] in E2.
      * injection E2 as ->. rewrite Nat.add_0_r in E1. subst j. left. destruct (Z.ltb_spec 0 (p_size q)); [|lia].
        rewrite E4. cbn. rewrite E5. auto.
      * right. exists k, q. repeat split; auto. lia.
Qed.
Lemma ixs_ge exc : forall l i x, In x (ixs exc i l) -> (i <= fst x)%nat.
Proof. intros l i (j, e) H. apply ixs_In in H. destruct H as (k & p & -> & _). cbn. lia. Qed.
Lemma ixs_NoDup exc : forall l i, NoDup (ixs exc i l).
Proof.
  induction l as [|p l IH]; intros i; cbn [ixs]; [constructor|]. destruct (_ && _)%bool; cbn [app]; auto.
  constructor; auto. intros H. apply ixs_ge in H. cbn in H. lia.
Qed.
Lemma sum_ixs exc : forall l i acc, acc < 2 ^ 64 -> (forall k p, nth_error l k = Some p -> (p_size p < 2 ^ 64)%Z) ->
  sum_pairs i l exc acc = u64 (acc + total (map snd (ixs exc i l))).
Proof.
  induction l as [|p l IH]; intros i acc B H; cbn [sum_pairs ixs].
  - cbn. unfold u64. rewrite N.add_0_r, N.mod_small; auto.
  - assert (B' : (p_size p < 2 ^ 64)%Z) by (apply (H O); auto).
    rewrite IH.
    + destruct (Z.ltb_spec 0 (p_size p)) as [G|G]; cbn [andb app]; [|reflexivity].
      destruct (exc i p); cbn [negb app]; [reflexivity|].
      rewrite u64_small by lia. cbn [map snd total]. unfold u64. rewrite N.add_mod_idemp_l by lia. f_equal. lia.
    + destruct (_ && _)%bool; auto. unfold u64. apply N.mod_lt. lia.
    + intros k q E. apply (H (S k)). auto.
Qed.

Lemma extent_refs t i o n : extent_of t i o n <-> refs t i = Some (o, n).
Proof.
  rewrite refs_at. unfold extent_of, ent. destruct (nth_error (t_arr t) i) as [p|].
  - split.
    + intros (q & E & H & -> & ->). injection E as <-. destruct (Z.ltb_spec 0 (p_size p)); [reflexivity|lia].
    + destruct (Z.ltb_spec 0 (p_size p)); [|discriminate]. intros E. injection E as <- <-. exists p. auto.
  - split; [intros (q & E & _)|]; discriminate.
Qed.

(** The extents of a file: those the data occupies now, and those kept for checkpoints only. *)
Definition data_extent (s : btab) (e : N * N) : Prop := exists i, extent_of (b_cur s) i (fst e) (snd e).
Definition ckpt_extent (s : btab) (e : N * N) : Prop :=
  (exists t i, (t = b_cp s \/ b_ip s = Some t) /\ extent_of t i (fst e) (snd e)) /\ ~ data_extent s e.

Lemma NoDup_app_i {B} (a b : list B) : NoDup a -> NoDup b -> (forall x, In x a -> ~ In x b) -> NoDup (a ++ b).
Proof.
  induction 1 as [|x a N _ IH]; cbn [app]; auto. intros Hb H. constructor.
  - rewrite in_app_iff. intros [C|C]; [auto|]. apply (H x); cbn; auto.
  - apply IH; auto. intros y Hy. apply H. cbn; auto.
Qed.
Lemma owned_NoDup s A : binv s A -> NoDup (map snd A).
Proof.
  intros I. pose proof (ai_disj _ _ _ _ I) as D. pose proof (ai_good _ _ _ _ I) as G. clear I.
  induction (map snd A) as [|e l IH]; constructor.
  - intros H. destruct D as (D & _). rewrite Forall_forall in D. specialize (D e H). inversion G as [|? ? (G1 & _) _]; subst.
    unfold disj, ext_end in D. lia.
  - destruct D. inversion G; auto.
Qed.

Lemma frag_ok A s : bt_inv True A s -> exists D C data add u rs,
  fragmentation s = Some (data, add, u) /\ NoDup (D ++ C) /\
  (forall e, In e D <-> data_extent s e) /\ (forall e, In e C <-> ckpt_extent s e) /\
  data = 4096 + bytes_of D /\ add = 4096 + bytes_of C /\
  (forall e, In e (D ++ C) -> fst e + snd e <= 2 ^ 63) /\ unused_regions 8192 (D ++ C) rs /\
  u_blocks u = u64 (N.of_nat (length (nonzero (map (giveable 4096) rs))) + 1) /\
  u_bytes u = u64 (sum_of (map (giveable 4096) rs) + (2 ^ 64 - 1)) /\ u_largest u = 2 ^ 64 - 1.
Proof.
  intros I. destruct I as [Ba Wf C1 Lc Li Sk Eq Sm Lk]. specialize (Lk Logic.I).
  assert (Sz : forall t, In t (trs s) -> forall k p, nth_error (t_arr t) k = Some p -> (p_size p < 2 ^ 64)%Z).
  { intros t Ht k p E. destruct (Z.ltb_spec 0 (p_size p)) as [G|G]; [|lia].
    destruct (Wf t Ht) as (W & Cv). assert (R : refs t k = Some (Z.to_N (p_off p), Z.to_N (p_size p))).
    { apply extent_refs. exists p. auto. }
    apply Cv in R. destruct (owned_good _ _ _ _ Ba R) as (G1 & G2 & G3 & G4). unfold ext_end, LIM in G4. cbn [fst snd] in *. lia. }
  set (D := ixs (fun _ _ => false) 0 (t_arr (b_cur s))).
  set (K1 := ixs (same_at (t_arr (b_cur s))) 0 (t_arr (b_cp s))).
  set (K2 := ixs (fun i p => same_at (t_arr (b_cur s)) i p || same_at (t_arr (b_cp s)) i p)%bool 0 (arr_of (b_ip s))).
  assert (Hcur : In (b_cur s) (trs s)) by (cbn; auto). assert (Hcp : In (b_cp s) (trs s)) by (cbn; auto).
  assert (Hip : forall t, b_ip s = Some t -> In t (trs s)) by (intros t E; unfold trs; rewrite E; cbn; auto).
  (* the pair of another translation at the same place *)
  assert (SA : forall t u i p, In t (trs s) -> In u (trs s) -> nth_error (t_arr u) i = Some p -> (0 < p_size p)%Z ->
    same_at (t_arr t) i p = true <-> refs t i = Some (Z.to_N (p_off p), Z.to_N (p_size p))).
  { intros t u i p Ht Hu E Hp. unfold same_at.
    assert (Ru : refs u i = Some (Z.to_N (p_off p), Z.to_N (p_size p))) by (apply extent_refs; exists p; auto).
    destruct (Wf t Ht) as (Wt & Ct). destruct (Wf u Hu) as (Wu & Cu).
    split.
    - destruct (nth_error (t_arr t) i) as [q|] eqn:Eq'; [|discriminate]. intros H. apply andb_true_iff in H.
      destruct H as (H1 & H2). apply Z.ltb_lt in H1. apply Z.eqb_eq in H2.
      assert (Rt : refs t i = Some (Z.to_N (p_off q), Z.to_N (p_size q))) by (apply extent_refs; exists q; auto).
      destruct (owned_off s A i _ i _ Ba (Ct _ _ Rt) (Cu _ _ Ru)) as (_ & Ee); [cbn [fst]; congruence|]. congruence.
    - intros Rt. assert (Rt' := Rt). apply refs_ent in Rt; auto. destruct Rt as (Rt & _). unfold ent in Rt. rewrite Rt. cbn [p_size p_off fst snd].
      apply refs_ent in Ru; auto. destruct Ru as (Ru & Pu). unfold ent in Ru. rewrite E in Ru. injection Ru as Ru.
      apply andb_true_iff. split; [apply Z.ltb_lt; cbn [snd] in Pu; lia|]. apply Z.eqb_eq. rewrite Ru at 2. reflexivity. }
  assert (InD : forall i e, In (i, e) D <-> refs (b_cur s) i = Some e).
  { intros i (o, n). unfold D. rewrite ixs_In, <- extent_refs. unfold extent_of. cbn [Nat.add]. split.
    - intros (k & p & -> & E & G & _ & X). injection X as -> ->. exists p. auto.
    - intros (p & E & G & -> & ->). exists i, p. auto. }
  assert (InK1 : forall i e, In (i, e) K1 <-> refs (b_cp s) i = Some e /\ refs (b_cur s) i <> Some e).
  { intros i (o, n). unfold K1. rewrite ixs_In, <- extent_refs. unfold extent_of. cbn [Nat.add]. split.
    - intros (k & p & -> & E & G & X & Y). injection Y as -> ->. split; [exists p; auto|].
      intros R. apply (SA (b_cur s) (b_cp s) k p Hcur Hcp E G) in R. congruence.
    - intros ((p & E & G & -> & ->) & R). exists i, p. repeat split; auto.
      destruct (same_at _ i p) eqn:X; auto. exfalso. apply R. now apply (SA (b_cur s) (b_cp s) i p Hcur Hcp E G). }
  assert (InK2 : forall i e, In (i, e) K2 <-> (exists t, b_ip s = Some t /\ refs t i = Some e) /\ refs (b_cur s) i <> Some e /\ refs (b_cp s) i <> Some e).
  { intros i (o, n). unfold K2, arr_of. destruct (b_ip s) as [t|] eqn:Et.
    2: { rewrite ixs_In. split; [intros (k & p & _ & E & _); destruct k; discriminate|intros ((t & E & _) & _); discriminate]. }
    specialize (Hip t eq_refl). rewrite ixs_In. cbn [Nat.add]. split.
    - intros (k & p & -> & E & G & X & Y). injection Y as -> ->. apply orb_false_iff in X. destruct X as (X1 & X2). split; [|split].
      + exists t. split; auto. apply extent_refs. exists p. auto.
      + intros R. apply (SA (b_cur s) t k p Hcur Hip E G) in R. congruence.
      + intros R. apply (SA (b_cp s) t k p Hcp Hip E G) in R. congruence.
    - intros ((t' & E & R) & R1 & R2). injection E as <-. apply extent_refs in R. destruct R as (p & E & G & -> & ->).
      exists i, p. repeat split; auto. apply orb_false_iff. split.
      + destruct (same_at _ i p) eqn:X; auto. exfalso. apply R1. now apply (SA (b_cur s) t i p Hcur Hip E G).
      + destruct (same_at _ i p) eqn:X; auto. exfalso. apply R2. now apply (SA (b_cp s) t i p Hcp Hip E G). }
  assert (Pm : Permutation A (D ++ K1 ++ K2)).
  { apply NoDup_Permutation.
    - eapply NoDup_map_inv, owned_NoDup; eauto.
    - apply NoDup_app_i; [apply ixs_NoDup|apply NoDup_app_i; [apply ixs_NoDup|apply ixs_NoDup|]|].
      + intros (i, e) H1 H2. apply InK1 in H1. apply InK2 in H2. tauto.
      + intros (i, e) H1 H2. apply InD in H1. apply in_app_or in H2. destruct H2 as [H2|H2]; [apply InK1 in H2|apply InK2 in H2]; tauto.
    - intros (i, e). rewrite !in_app_iff, InD, InK1, InK2. split.
      + intros H. destruct (Lk _ H) as (t & Ht & R). cbn [fst snd] in R.
        assert (DD : forall t0, refs t0 i = Some e \/ refs t0 i <> Some e).
        { intros t0. destruct (refs t0 i) as [(o, n)|]; [|right; discriminate]. destruct e as (o', n').
          destruct (N.eq_dec o o'), (N.eq_dec n n'); subst; auto; right; congruence. }
        destruct (DD (b_cur s)) as [?|?]; [auto|]. destruct (DD (b_cp s)) as [?|?]; [auto|].
        right. right. split; [|auto]. unfold trs in Ht. destruct Ht as [<-|[<-|Ht]]; try contradiction.
        destruct (b_ip s) as [t0|]; [|destruct Ht]. destruct Ht as [<-|[]]. eauto.
      + intros [R|[(R & _)|((t & E & R) & _)]].
        * destruct (Wf _ Hcur) as (_ & Cv). auto.
        * destruct (Wf _ Hcp) as (_ & Cv). auto.
        * destruct (Wf _ (Hip _ E)) as (_ & Cv). auto. }
  assert (Pe : Permutation (map snd A) (map snd D ++ map snd (K1 ++ K2))) by (rewrite <- map_app; now apply Permutation_map).
  pose proof (ainv_perm _ _ _ _ _ Pe Ba) as Ba'.
  pose proof (total_bound 8192 4096 ltac:(lia) eq_refl ltac:(lia) ltac:(lia) _ _ Ba') as Bd. rewrite total_app in Bd. unfold LIM in Bd.
  assert (P0 : params 8192 4096) by (unfold params; repeat split; lia).
  set (data := 4096 + total (map snd D)). set (add := 4096 + total (map snd (K1 ++ K2))).
  destruct (report_ok 8192 4096 P0 (b_ba s) _ data add Ba') as (rs & u & R1 & R2 & R3 & R4 & R5).
  { rewrite total_app. unfold data, add. lia. }
  { unfold data, add. lia. }
  exists (map snd D), (map snd (K1 ++ K2)), data, add, u, rs.
  assert (Fr : fragmentation s = Some (data, add, u)).
  { unfold fragmentation. change HDR_RESERVE with 4096.
    rewrite (sum_ixs _ (t_arr (b_cur s)) 0 4096 ltac:(lia) (Sz _ Hcur)).
    rewrite (sum_ixs _ (t_arr (b_cp s)) 0 4096 ltac:(lia) (Sz _ Hcp)).
    rewrite (sum_ixs _ (arr_of (b_ip s))); [|unfold u64; apply N.mod_lt; lia|].
    - fold D K1 K2. assert (E1 : u64 (4096 + total (map snd D)) = data) by (unfold u64; apply N.mod_small; lia).
      assert (E2 : u64 (u64 (4096 + total (map snd K1)) + total (map snd K2)) = add).
      { unfold add. rewrite map_app, total_app in *. unfold u64. rewrite N.add_mod_idemp_l by lia. rewrite N.mod_small by lia. lia. }
      rewrite E1, E2, R2. reflexivity.
    - unfold arr_of. destruct (b_ip s) as [t|] eqn:Et; [apply Sz; auto|]. intros [|k] p E; discriminate. }
  split; [exact Fr|]. split; [rewrite <- Pe; eapply owned_NoDup; eauto|]. split; [|split; [|split; [|split; [|split; [|split; [exact R1|auto]]]]]].
  - intros (o, n). unfold data_extent. cbn [fst snd]. rewrite in_map_iff. split.
    + intros ((i, e) & E & H). cbn [snd] in E. subst e. exists i. apply extent_refs, InD. auto.
    + intros (i & H). exists (i, (o, n)). split; auto. apply InD, extent_refs. auto.
  - intros (o, n). unfold ckpt_extent, data_extent. cbn [fst snd].
    assert (U : forall i j t, In t (trs s) -> refs t i = Some (o, n) -> refs (b_cur s) j = Some (o, n) -> i = j).
    { intros i j t Ht R Rj. destruct (Wf t Ht) as (_ & Ct). destruct (Wf _ Hcur) as (_ & Cc).
      eapply (owned_off s A i (o, n) j (o, n)); auto. }
    rewrite in_map_iff. split.
    + intros ((i, e) & E & H). cbn [snd] in E. subst e. apply in_app_or in H. destruct H as [H|H].
      * apply InK1 in H. destruct H as (H1 & H2). split; [exists (b_cp s), i; split; auto; now apply extent_refs|].
        intros (j & H). apply extent_refs in H. rewrite (U i j _ Hcp H1 H) in H2. auto.
      * apply InK2 in H. destruct H as ((t & E & H1) & H2 & _). split; [exists t, i; split; auto; now apply extent_refs|].
        intros (j & H). apply extent_refs in H. rewrite (U i j _ (Hip t E) H1 H) in H2. auto.
    + intros ((t & i & Ht & H) & N). exists (i, (o, n)). split; auto. apply in_or_app.
      assert (Nc : refs (b_cur s) i <> Some (o, n)) by (intros R; apply N; exists i; now apply extent_refs).
      apply extent_refs in H. destruct Ht as [->|Ht]; [left; apply InK1; auto|].
      assert (DD : refs (b_cp s) i = Some (o, n) \/ refs (b_cp s) i <> Some (o, n)).
      { destruct (refs (b_cp s) i) as [(o', n')|]; [|right; discriminate].
        destruct (N.eq_dec o o'), (N.eq_dec n n'); subst; auto; right; congruence. }
      destruct DD; [left; apply InK1; auto|right; apply InK2; eauto].
  - unfold data. now rewrite total_bytes.
  - unfold add. now rewrite total_bytes.
  - intros e He. pose proof (ai_good _ _ _ _ Ba') as G. rewrite Forall_forall in G. destruct (G e He) as (_ & _ & _ & G4). exact G4.
Qed.

(** ** C41 *)

(** The report never fails; data and checkpoint bytes are exact.  Of the three figures about
    the unused space, the count is one too high, the sum is one too low (modulo 2^64) and
    the largest region is always 2^64-1: the endless region behind the last extent is counted
    with a size of 2^64-1.  Missing for the full claim, beside that: dictionaries with more
    than 8192 nodes, where C18 fails. *)
Theorem C41_report_partial : forall u l f, run True u l f ->
  exists data_exts ckpt_exts data ckpt report regions,
    fragmentation (f_bt f) = Some (data, ckpt, report) /\
    NoDup (data_exts ++ ckpt_exts) /\
    (forall e, In e data_exts <-> data_extent (f_bt f) e) /\ (forall e, In e ckpt_exts <-> ckpt_extent (f_bt f) e) /\
    data = 4096 + bytes_of data_exts /\ ckpt = 4096 + bytes_of ckpt_exts /\
    (forall e, In e (data_exts ++ ckpt_exts) -> fst e + snd e <= 2 ^ 63) /\
    unused_regions 8192 (data_exts ++ ckpt_exts) regions /\
    u_blocks report = (N.of_nat (length (nonzero (map (giveable 4096) regions))) + 1) mod 2 ^ 64 /\
    u_bytes report = (sum_of (map (giveable 4096) regions) + (2 ^ 64 - 1)) mod 2 ^ 64 /\
    u_largest report = 2 ^ 64 - 1.
Proof.
  intros u l f R. destruct (run_ok True u l f R) as (A & a & I & _ & _). exact (frag_ok A (f_bt f) (fi_bt _ _ _ _ I)).
Qed.
Print Assumptions C41_report_partial.

Definition small_b (f : fts) (o : op) : bool :=
  match o with OAlloc => (t_snub (b_cur (f_bt f)) <? 8192)%Z | _ => true end.
Fixpoint run_s (f : fts) (l : list op) : option fts :=
  match l with
  | [] => Some f
  | o :: l' => guard legal_b f o; guard small_b f o; do f' <- step f o; run_s f' l'
  end.
Lemma run_s_ok u l : forall l0 f f', run True u l0 f -> run_s f l = Some f' -> run True u (l0 ++ l) f'.
Proof.
  induction l as [|o l IH]; cbn [run_s]; intros l0 f f' R E.
  - injection E as <-. now rewrite app_nil_r.
  - destruct (legal_b f o) eqn:Lb; [|discriminate]. destruct (small_b f o) eqn:Sb; [|discriminate].
    destruct (step f o) as [g|] eqn:Es; [|discriminate].
    replace (l0 ++ o :: l) with ((l0 ++ [o]) ++ l) by now rewrite <- app_assoc.
    apply (IH _ g); auto. econstructor; eauto. apply legal_b_ok in Lb. destruct o; cbn [legal] in *; auto.
    intros _. right. now apply Z.ltb_lt.
Qed.
(** None of the three figures about the unused space is ever right. *)
Theorem C41_unused_figures_refuted : forall u l f, run True u l f ->
  exists es data ckpt report regions,
    fragmentation (f_bt f) = Some (data, ckpt, report) /\
    (forall e, In e es <-> data_extent (f_bt f) e \/ ckpt_extent (f_bt f) e) /\ unused_regions 8192 es regions /\
    u_blocks report <> N.of_nat (length (nonzero (map (giveable 4096) regions))) /\
    u_bytes report <> sum_of (map (giveable 4096) regions) /\
    (forall r, In r regions -> snd r < u_largest report /\ giveable 4096 r < u_largest report).
Proof.
  intros u l f R. destruct (C41_report_partial u l f R) as (D & C & data & ckpt & rep & rs & H1 & H2 & H3 & H4 & _ & _ & H5 & H6 & H7 & H8 & H9).
  exists (D ++ C), data, ckpt, rep, rs. split; auto. split; [intros e; rewrite in_app_iff, H3, H4; tauto|]. split; auto.
  rewrite H7, H8, H9.
  assert (M : forall a k, 0 < k < 2 ^ 64 -> (a + k) mod 2 ^ 64 <> a).
  { intros a k Hk E. assert (a < 2 ^ 64) by (rewrite <- E; apply N.mod_lt; lia).
    destruct (N.lt_ge_cases (a + k) (2 ^ 64)) as [X|X]; [rewrite N.mod_small in E by auto; lia|].
    replace (a + k) with (a + k - 2 ^ 64 + 1 * 2 ^ 64) in E by lia. rewrite N.mod_add in E by lia. rewrite N.mod_small in E by lia. lia. }
  split; [apply M; lia|]. split; [apply M; lia|]. intros r Hr. destruct H6 as (_ & Ps & Cv). rewrite Forall_forall in Ps. specialize (Ps r Hr).
  assert (B : in_some (fst r + snd r - 1) rs) by (exists r; split; auto; lia).
  apply Cv in B. destruct B as (_ & _ & e & He & Hb). specialize (H5 e He). unfold giveable. lia.
Qed.
Print Assumptions C41_unused_figures_refuted.

Definition frag_ops : list op := disk_ops ++ [OHdrSync; OEnd nojunk].
Definition frag_end : option fts := do f0 <- f_init []; run_s f0 frag_ops.
Lemma frag_end_run f : frag_end = Some f -> run True [] frag_ops f.
Proof.
  unfold frag_end. destruct (f_init []) as [f0|] eqn:E0; [|discriminate]. intros E.
  exact (run_s_ok [] frag_ops [] f0 f (run_init True [] f0 E0) E).
Qed.
Definition C41_outcome (f : option fts) : option (option (N * N * unused) * list hole) :=
  do f <- f; Some (fragmentation (f_bt f), tree_holes (a_tree (b_ba (f_bt f)))).
Lemma c41_outcome : C41_outcome frag_end = Some (Some (4097, 4216, mkU 8191 2 (2 ^ 64 - 1)), [Hole 8192 8192; Hole 16388 4092; Hole 20481 4095; Hole 24692 (2 ^ 64 - 1)]).
Proof. vm_compute. reflexivity. Qed.
(** A run with two checkpoints; one unused region of two pages is left, at 8192. *)
Example C41_case : exists f, run True [] frag_ops f /\
  fragmentation (f_bt f) = Some (4097, 4216, mkU 8191 2 (2 ^ 64 - 1)) /\
  tree_holes (a_tree (b_ba (f_bt f))) = [Hole 8192 8192; Hole 16388 4092; Hole 20481 4095; Hole 24692 (2 ^ 64 - 1)].
Proof.
  pose proof c41_outcome as H. pose proof frag_end_run as R. destruct frag_end as [f|]; [|discriminate H].
  exists f. split; [now apply R|]. unfold C41_outcome in H. injection H as H1 H2. split; assumption.
Qed.
