(** C15, C16: the allocator of disk space of a dictionary file. *)
From Coq Require Import List NArith Lia Permutation Sorted.
From Verif Require Import Base MhsModel MhsProofs MhsHoles BlkAllocModel BlkAllocProofs BlkSpec.
Open Scope N_scope.

(** The parameters a BlockAllocator may have; a dictionary file uses 8192 and 4096. *)
Definition params (reserve al : N) : Prop := 512 <= al /\ al mod 512 = 0 /\ al <= 2 ^ 32 /\ reserve <= 2 ^ 32.

Section P.
Variables reserve al : N.
Hypothesis P : params reserve al.
Let P1 : 512 <= al := proj1 P.
Let P2 : al mod 512 = 0 := proj1 (proj2 P).
Let P3 : al <= 2 ^ 32 := proj1 (proj2 (proj2 P)).
Let P4 : reserve <= 2 ^ 32 := proj2 (proj2 (proj2 P)).

Lemma overlap_disj e f : 0 < snd e -> 0 < snd f -> disj e f <-> ~ overlap e f.
Proof.
  intros He Hf. unfold disj, overlap, ext_end. split.
  - intros D (b & B1 & B2). lia.
  - intros N. destruct (N.le_gt_cases (fst e + snd e) (fst f)); [lia|]. destruct (N.le_gt_cases (fst f + snd f) (fst e)); [lia|].
    exfalso. apply N. exists (N.max (fst e) (fst f)). lia.
Qed.
Lemma pdisj_ord es : Forall (fun e => 0 < snd e) es -> pdisj es <-> ForallOrdPairs (fun e f => ~ overlap e f) es.
Proof.
  induction 1 as [|e es He Hes IH]; cbn [pdisj]; [split; auto; constructor|].
  split.
  - intros (D & Q). constructor; [|tauto]. rewrite Forall_forall in *. intros f Hf. apply overlap_disj; auto.
  - intros Q. inversion Q as [|? ? D Q']; subst. split; [|tauto]. rewrite Forall_forall in *. intros f Hf. apply overlap_disj; auto.
Qed.
Lemma used_in b es : used_byte b es <-> in_some b es.
Proof. unfold used_byte, in_some, in_ext, ext_end. tauto. Qed.
Lemma total_bytes es : total es = bytes_of es.
Proof. induction es as [|e es IH]; cbn [total bytes_of fold_right]; [reflexivity|]. now rewrite IH. Qed.
Lemma holes_tree t : holes t = tree_holes t.
Proof. induction t; cbn; congruence. Qed.

Lemma reach_inv a es : reach reserve al a es -> ainv reserve al a es.
Proof.
  induction 1 as [a H|pairs a Ne G D H|a es size limit a' off R IH Hs Hl Hr H|a es1 e es2 a' R IH H].
  - destruct (ba_create_ok reserve al P1 P2 P3 P4) as (a0 & E & I). congruence.
  - assert (G' : Forall (good reserve al) pairs) by exact G.
    destruct (create_from_pairs_ok reserve al P1 P2 P3 P4 pairs Ne G') as (a0 & E & I); [|congruence].
    apply pdisj_ord; auto. eapply Forall_impl; [|exact G]. cbn. tauto.
  - destruct (alloc_ok reserve al P1 P2 P3 P4 a es size limit IH Hs Hl Hr) as (a0 & o0 & E & I & _). congruence.
  - assert (Pm : Permutation (es1 ++ e :: es2) (e :: es1 ++ es2)) by (symmetry; apply Permutation_middle).
    destruct (free_ok reserve al P1 P2 P3 P4 a (es1 ++ e :: es2) e (es1 ++ es2) IH Pm) as (a0 & E & I). congruence.
Qed.

Theorem extents_ok a es : reach reserve al a es ->
  ForallOrdPairs (fun e f => ~ overlap e f) es /\
  (forall e, In e es -> 0 < snd e /\ reserve <= fst e /\ fst e mod al = 0) /\
  a_bytes a = reserve + bytes_of es /\ a_blocks a = N.of_nat (length es) /\
  (forall b, (exists h, In h (tree_holes (a_tree a)) /\ hole_has b h) <-> reserve <= b /\ ~ in_some b es).
Proof.
  intros R. pose proof (reach_inv _ _ R) as I. split; [|split; [|split; [|split]]].
  - apply pdisj_ord; [|apply I]. eapply Forall_impl; [|apply (ai_good _ _ _ _ I)]. intros e (G & _). exact G.
  - intros e He. pose proof (ai_good _ _ _ _ I) as G. rewrite Forall_forall in G. destruct (G e He) as (G1 & G2 & G3 & _). auto.
  - rewrite <- total_bytes. exact (bytes_exact reserve al P1 P2 P3 P4 a es I).
  - exact (blocks_exact reserve al P1 P2 P3 P4 a es I).
  - intros b. rewrite <- (holes_tree (a_tree a)). pose proof (used_in b es) as U. pose proof (ai_free _ _ _ _ I b) as F.
    transitivity (free_byte b (holes (a_tree a))); [reflexivity|]. tauto.
Qed.

Lemma usable_esz lo h : valid lo h -> esz al h = usable al h.
Proof.
  intros V. rewrite (esz_valid al ltac:(lia) P3 lo h V). unfold usable. change MAXV with (2 ^ 64 - 1).
  destruct (h_size h =? 2 ^ 64 - 1); auto. destruct V as (V1 & V2 & V3 & V4).
  unfold align. rewrite N.mod_small by (unfold LIM in *; lia).
  destruct (N.ltb_spec (h_off h + h_size h) ((h_off h + al - 1) / al * al)); lia.
Qed.
Lemma largest_app a b : largest al (a ++ b) = N.max (largest al a) (largest al b).
Proof. unfold largest. induction a as [|h a IH]; cbn [app fold_right]; [lia|]. rewrite IH. lia. Qed.
Lemma labels_of lo t : wl al t -> Forall (valid lo) (holes t) -> mh al t = largest al (tree_holes t) /\ labels_ok al t.
Proof.
  induction t as [|c l IHl h lm rm r IHr]; cbn [wl holes mh tree_holes labels_ok]; intros W V; [auto|].
  destruct W as (-> & -> & _ & Wl & Wr). apply Forall_app in V. destruct V as (Vl & V). inversion V as [|? ? Vh Vr]; subst.
  destruct (IHl Wl Vl) as (L1 & L2). destruct (IHr Wr Vr) as (R1 & R2). split; auto.
  rewrite largest_app. unfold top3. rewrite (usable_esz lo h Vh), L1, R1. unfold largest. cbn [fold_right]. fold (largest al (tree_holes r)).
  fold (largest al (tree_holes l)). lia.
Qed.
Lemma rb_height t n : rb t n -> black_height t = Some n.
Proof.
  induction 1 as [|l h lm rm r n Rl IHl Rr IHr Hl Hr|l h lm rm r n Rl IHl Rr IHr]; cbn [black_height]; auto;
    rewrite IHl, IHr, Nat.eqb_refl; rewrite ?Hl, ?Hr; reflexivity.
Qed.

Theorem tree_ok a es : reach reserve al a es ->
  StronglySorted (fun h1 h2 => h_size h1 <> 2 ^ 64 - 1 /\ h_off h1 + h_size h1 < h_off h2) (tree_holes (a_tree a)) /\
  Forall (fun h => 0 < h_size h) (tree_holes (a_tree a)) /\
  labels_ok al (a_tree a) /\ (exists n, black_height (a_tree a) = Some n) /\ is_red (a_tree a) = false.
Proof.
  intros R. pose proof (reach_inv _ _ R) as I. destruct (ai_sep _ _ _ _ I) as (V & S). destruct (ai_ok _ _ _ _ I) as (W & (n & Rb) & B).
  rewrite <- !holes_tree. split; [exact S|]. split.
  - eapply Forall_impl; [|exact V]. intros h (V1 & V2 & V3 & V4). exact V3.
  - split; [|split; [exists n; now apply rb_height|exact B]]. exact (proj2 (labels_of _ _ W V)).
Qed.

Theorem first_fit a es size limit : reach reserve al a es -> 0 < size -> ba_limit a = Some limit -> limit + al + size <= 2 ^ 63 ->
  exists a' off, ba_alloc a size = Some (a', off) /\ reserve <= off /\ off mod al = 0 /\
    (forall b, off <= b < off + size -> ~ in_some b es) /\
    (forall x, reserve <= x -> x mod al = 0 -> (forall b, x <= b < x + size -> ~ in_some b es) -> off <= x).
Proof.
  intros R Hs Hl Hr. pose proof (reach_inv _ _ R) as I.
  destruct (alloc_ok reserve al P1 P2 P3 P4 a es size limit I Hs Hl Hr) as (a' & off & E & I' & F).
  exists a', off. pose proof (ai_good _ _ _ _ I') as G. inversion G as [|? ? (G1 & G2 & G3 & G4) _]; subst. cbn [fst snd] in *.
  split; auto. split; auto. split; auto. split.
  - intros b Hb (f & Hf & Hfb). pose proof (ai_disj _ _ _ _ I') as (D & _). rewrite Forall_forall in D. specialize (D f Hf).
    unfold disj, ext_end in D. cbn [fst snd] in D. lia.
  - intros x X1 X2 X3. apply F; auto.
Qed.

Theorem free_succeeds a es1 e es2 : reach reserve al a (es1 ++ e :: es2) -> exists a', ba_free a (fst e) (snd e) = Some a'.
Proof.
  intros R. pose proof (reach_inv _ _ R) as I.
  assert (Pm : Permutation (es1 ++ e :: es2) (e :: es1 ++ es2)) by (symmetry; apply Permutation_middle).
  destruct (free_ok reserve al P1 P2 P3 P4 a (es1 ++ e :: es2) e (es1 ++ es2) I Pm) as (a0 & E & _). eauto.
Qed.
Theorem limit_exact a es : reach reserve al a es -> exists limit, ba_limit a = Some limit /\ reserve <= limit /\
  (forall e, In e es -> fst e + snd e <= limit) /\ (limit = reserve \/ exists e, In e es /\ fst e + snd e = limit).
Proof.
  intros R. destruct (limit_ok reserve al P1 P2 P3 P4 a es (reach_inv _ _ R)) as (L & E & (B & _) & H1 & H2). exists L. auto.
Qed.
End P.

(** ** C15 *)

(** Extents are disjoint, aligned and outside the reserved area; accounting is exact; the
    holes are exactly the bytes not handed out. *)
Theorem C15_extents_disjoint : forall reserve al a es, params reserve al -> reach reserve al a es ->
  ForallOrdPairs (fun e f => ~ overlap e f) es /\
  (forall e, In e es -> 0 < snd e /\ reserve <= fst e /\ fst e mod al = 0) /\
  a_bytes a = reserve + bytes_of es /\ a_blocks a = N.of_nat (length es) /\
  (forall b, (exists h, In h (tree_holes (a_tree a)) /\ hole_has b h) <-> reserve <= b /\ ~ in_some b es).
Proof. intros reserve al a es P. exact (extents_ok reserve al P a es). Qed.
Print Assumptions C15_extents_disjoint.

(** Freeing an extent that was handed out never fails. *)
Theorem C15_free_succeeds : forall reserve al a es1 e es2, params reserve al ->
  reach reserve al a (es1 ++ e :: es2) -> exists a', ba_free a (fst e) (snd e) = Some a'.
Proof. intros reserve al a es1 e es2 P. exact (free_succeeds reserve al P a es1 e es2). Qed.
Print Assumptions C15_free_succeeds.

(** The limit to which the file may be cut off is the end of the last extent. *)
Theorem C15_limit : forall reserve al a es, params reserve al -> reach reserve al a es ->
  exists limit, ba_limit a = Some limit /\ reserve <= limit /\
  (forall e, In e es -> fst e + snd e <= limit) /\ (limit = reserve \/ exists e, In e es /\ fst e + snd e = limit).
Proof. intros reserve al a es P. exact (limit_exact reserve al P a es). Qed.
Print Assumptions C15_limit.

(** ** C16 *)

(** The tree of holes is sorted with gaps between the holes, balanced and labelled right. *)
Theorem C16_hole_tree : forall reserve al a es, params reserve al -> reach reserve al a es ->
  StronglySorted (fun h1 h2 => h_size h1 <> 2 ^ 64 - 1 /\ h_off h1 + h_size h1 < h_off h2) (tree_holes (a_tree a)) /\
  Forall (fun h => 0 < h_size h) (tree_holes (a_tree a)) /\
  labels_ok al (a_tree a) /\ (exists n, black_height (a_tree a) = Some n) /\ is_red (a_tree a) = false.
Proof. intros reserve al a es P. exact (tree_ok reserve al P a es). Qed.
Print Assumptions C16_hole_tree.

(** Every request is met, with the lowest aligned address at which it fits. *)
Theorem C16_first_fit : forall reserve al a es size limit, params reserve al -> reach reserve al a es ->
  0 < size -> ba_limit a = Some limit -> limit + al + size <= 2 ^ 63 ->
  exists a' off, ba_alloc a size = Some (a', off) /\ reserve <= off /\ off mod al = 0 /\
    (forall b, off <= b < off + size -> ~ in_some b es) /\
    (forall x, reserve <= x -> x mod al = 0 -> (forall b, x <= b < x + size -> ~ in_some b es) -> off <= x).
Proof. intros reserve al a es size limit P. exact (first_fit reserve al P a es size limit). Qed.
Print Assumptions C16_first_fit.

(** A run with holes, reuse and coalescing. *)
Definition room_b (a : alloc) (size : N) : bool :=
  match ba_limit a with Some l => (0 <? size) && (l + 4096 + size <=? 2 ^ 63) | None => false end.
Definition do_req (x : option (alloc * list (N * N))) (r : N + nat) : option (alloc * list (N * N)) :=
  do (a, es) <- x;
  match r with
  | inl size => guard room_b a size; do (a', off) <- ba_alloc a size; Some (a', (off, size) :: es)
  | inr k => do e <- nth_error es k; do a' <- ba_free a (fst e) (snd e); Some (a', firstn k es ++ skipn (S k) es)
  end.
Lemma do_req_reach a es r x : reach 8192 4096 a es -> do_req (Some (a, es)) r = Some x -> reach 8192 4096 (fst x) (snd x).
Proof.
  intros R E. destruct r as [size|k]; cbn [do_req] in E.
  - destruct (room_b a size) eqn:Hr; [|discriminate].
    destruct (ba_alloc a size) as [[a' off]|] eqn:Ea; [|discriminate]. injection E as <-. cbn [fst snd].
    unfold room_b in Hr. destruct (ba_limit a) as [l|] eqn:El; [|discriminate]. apply andb_true_iff in Hr. destruct Hr as (H1 & H2).
    apply N.ltb_lt in H1. apply N.leb_le in H2. eapply reach_alloc; eauto.
  - destruct (nth_error es k) as [e|] eqn:Ek; [|discriminate]. destruct (ba_free a (fst e) (snd e)) as [a'|] eqn:Ea; [|discriminate].
    injection E as <-. cbn [fst snd]. assert (Es : es = firstn k es ++ e :: skipn (S k) es).
    { clear -Ek. revert es Ek. induction k as [|k IH]; intros [|y es] Ek; cbn in *; try discriminate; [congruence|]. f_equal. auto. }
    apply (reach_free 8192 4096 a (firstn k es) e (skipn (S k) es)); [rewrite <- Es; exact R|exact Ea].
Qed.
Lemma do_reqs_reach rs : forall x y, (forall a es, x = Some (a, es) -> reach 8192 4096 a es) ->
  fold_left do_req rs x = Some y -> reach 8192 4096 (fst y) (snd y).
Proof.
  induction rs as [|r rs IH]; cbn [fold_left]; intros x y Hx E.
  - destruct y as (a & es). auto.
  - apply (IH (do_req x r)); auto. intros a es E'. destruct x as [(a0 & es0)|]; [|discriminate].
    apply (do_req_reach a0 es0 r (a, es)); auto.
Qed.
Definition c15_reqs : list (N + nat) :=
  [inl 100; inl 5000; inl 4096; inl 1; inl 20000; inr 3%nat; inr 2%nat; inl 4097; inr 1%nat; inl 300].
Definition c15_state := fold_left do_req c15_reqs (do a <- ba_create 8192 4096; Some (a, [])).
Example C15_case : exists a es, c15_state = Some (a, es) /\ reach 8192 4096 a es /\
  es = [(20480, 300); (12288, 4097); (24576, 1); (8192, 100)] /\
  tree_holes (a_tree a) = [Hole 8292 3996; Hole 16385 4095; Hole 20780 3796; Hole 24577 (2 ^ 64 - 1)].
Proof.
  assert (H : exists y, c15_state = Some y) by (vm_compute; eauto). destruct H as ((a & es) & H). exists a, es.
  split; [exact H|]. split.
  - apply (do_reqs_reach c15_reqs (do a <- ba_create 8192 4096; Some (a, [])) (a, es)); [|exact H].
    intros a0 es0 E. destruct (ba_create 8192 4096) eqn:Ec; [|discriminate]. injection E as <- <-. now apply reach_create.
  - vm_compute in H. injection H as <- <-. vm_compute. split; reflexivity.
Qed.
