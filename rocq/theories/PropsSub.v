(** C62: sub-blocks of rollback log nodes. *)
From Coq Require Import ZArith Permutation.
From Verif Require Import Base SubModel.

(** ** Sizes *)
Section Sizes.
Local Open Scope Z_scope.

Fixpoint zsum (l : list Z) : Z := match l with [] => 0 | x :: r => x + zsum r end.

Lemma int32_ok z : -2147483648 <= z < 2147483648 -> int32 z = Some z.
Proof. intros H. unfold int32. rewrite (proj2 (Z.leb_le _ _)), (proj2 (Z.ltb_lt _ _)) by lia. auto. Qed.

Lemma choose_spec total limit : 0 < total -> 1 <= limit -> total + 64 * limit < 2147483648 ->
  exists size n, choose total limit = CSizes size n /\ 1 <= n <= limit /\ (n - 1) * size < total <= n * size /\
    (n = 1 \/ target <= size).
Proof.
  intros T L B. unfold choose. rewrite (proj2 (Z.ltb_ge total 0)), (proj2 (Z.ltb_ge limit 1)) by lia. cbn [orb]. cbv zeta.
  destruct (Z.leb_spec (total / target) 1) as [H|H].
  - rewrite (proj2 (Z.ltb_lt 0 total)) by lia. exists total, 1. split; auto. lia.
  - set (n := if limit <? total / target then limit else total / target).
    assert (N : 1 < n \/ (n = 1 /\ limit = 1)) by (unfold n; destruct (Z.ltb_spec limit (total / target)); lia).
    assert (NL : n <= limit /\ n <= total / target) by (unfold n; destruct (Z.ltb_spec limit (total / target)); lia).
    assert (TT : target * (total / target) <= total) by (apply Z.mul_div_le; reflexivity).
    unfold target in TT. assert (Q : 524288 * n <= total) by (destruct NL; unfold target in *; lia).
    assert (Q2 : 524288 <= total / n) by (apply Z.div_le_lower_bound; lia).
    pose proof (Z.div_mod total n ltac:(lia)) as DM. pose proof (Z.mod_pos_bound total n ltac:(lia)) as MB.
    set (a := total / n) in *.
    assert (AL : a <= total) by nia.
    unfold alignup. rewrite int32_ok by lia.
    set (s := (a + 32 - 1) / 32 * 32).
    assert (S1 : a <= s <= a + 31).
    { unfold s. pose proof (Z.div_mod (a + 32 - 1) 32 ltac:(lia)). pose proof (Z.mod_pos_bound (a + 32 - 1) 32 ltac:(lia)). lia. }
    rewrite int32_ok by lia.
    assert (P1 : s * n <= total + 31 * n) by nia.
    cbn [round_up]. rewrite int32_ok by nia. destruct (Z.ltb_spec (s * n) total) as [U|U].
    + rewrite int32_ok by lia. assert (P2 : total <= (s + 32) * n < total + 32 * n) by nia. rewrite int32_ok by nia.
      destruct (Z.ltb_spec ((s + 32) * n) total); [lia|].
      exists (s + 32), n. split; auto. split; [lia|]. split; [|right; unfold target; lia].
      nia.
    + exists s, n. split; auto. split; [lia|]. split; [|right; unfold target; lia]. nia.
Qed.

Lemma zsum_repeat x k : zsum (repeat x k) = Z.of_nat k * x.
Proof. induction k; cbn [repeat zsum]; lia. Qed.
Lemma zsum_app a b : zsum (a ++ b) = zsum a + zsum b.
Proof. induction a; cbn [app zsum]; lia. Qed.

(** A node of [total] bytes is cut into at most [limit] sub-blocks, none empty, of
    [total] bytes together; if there are several all but the last have at least the
    target size. *)
Theorem C62_sizes : forall total limit, 0 < total -> 1 <= limit -> total + 64 * limit < 2147483648 ->
  exists size n, choose total limit = CSizes size n /\
    let sizes := set_sizes total size n in
    1 <= Z.of_nat (length sizes) <= limit /\ zsum sizes = total /\ Forall (fun s => 0 < s) sizes /\
    (Z.of_nat (length sizes) = 1 \/ Forall (fun s => target <= s) (removelast sizes)).
Proof.
  intros total limit T L B. destruct (choose_spec total limit T L B) as (size & n & C & N & S & U). exists size, n. split; auto. cbv zeta.
  unfold set_sizes. set (k := Z.to_nat (n - 1)). assert (K : Z.of_nat k = n - 1) by (unfold k; lia). rewrite K.
  rewrite (proj2 (Z.ltb_lt 0 (total - (n - 1) * size))) by lia. rewrite orb_true_r.
  assert (P : 0 < size) by nia.
  rewrite app_length, repeat_length. cbn [length]. split; [lia|]. split; [|split].
  - rewrite zsum_app, zsum_repeat, K. cbn [zsum]. lia.
  - apply Forall_app. split; [|constructor; [lia|constructor]]. apply Forall_forall. intros x X. apply repeat_spec in X. lia.
  - destruct U as [->|U]; [left; cbn in K; lia|right]. rewrite removelast_last. apply Forall_forall. intros x X. apply repeat_spec in X. lia.
Qed.

(** Near 2^31 the sum of the rounded sizes overflows. *)
Theorem C62_sizes_refuted : exists total limit, 0 < total < 2147483648 /\ 1 <= limit <= 8 /\ choose total limit = CUndef.
Proof. exists 2147483647, 8. split; [lia|]. split; [lia|]. vm_compute. reflexivity. Qed.

Lemma index_spec sizes : forall i start off, Forall (fun s => 0 < s) sizes -> start <= off < start + zsum sizes ->
  exists k s, index_from i start sizes off = i + Z.of_nat k /\ nth_error sizes k = Some s /\
    start + zsum (firstn k sizes) <= off < start + zsum (firstn k sizes) + s.
Proof.
  induction sizes as [|s r IH]; intros i start off P O; cbn [zsum] in O; [lia|]. inversion P; subst. cbn [index_from].
  destruct (Z.ltb_spec off (start + s)) as [H|H].
  - exists 0%nat, s. cbn. split; [lia|]. split; auto. lia.
  - destruct (IH (i + 1) (start + s) off) as (k & x & E & N & B); auto; [lia|]. exists (S k), x. rewrite E. split; [lia|]. split; auto.
    cbn [firstn zsum]. lia.
Qed.
(** Every byte is in the sub-block that is found for it; bytes outside are in none. *)
Theorem C62_index : forall sizes off, Forall (fun s => 0 < s) sizes -> 0 <= off ->
  (off < zsum sizes -> exists k s, index_from 0 0 sizes off = Z.of_nat k /\ nth_error sizes k = Some s /\
    zsum (firstn k sizes) <= off < zsum (firstn k sizes) + s) /\
  (zsum sizes <= off -> index_from 0 0 sizes off = -1).
Proof.
  intros sizes off P O. split; intros H.
  - destruct (index_spec sizes 0 0 off P) as (k & s & E & N & B); [lia|]. exists k, s. rewrite E. split; auto.
  - assert (G : forall i start, start + zsum sizes <= off -> index_from i start sizes off = -1).
    { clear H. induction sizes as [|s r IH]; intros i start H; auto. cbn [zsum] in H. inversion P; subst. cbn [index_from].
      assert (0 <= zsum r). { clear - H3. induction r as [|x r IH]; cbn [zsum]; [lia|]. inversion H3; subst. specialize (IH H2). lia. }
      destruct (Z.ltb_spec off (start + s)); [lia|]. apply IH; auto. lia. }
    apply G. lia.
Qed.
End Sizes.
Print Assumptions C62_sizes.
Print Assumptions C62_sizes_refuted.
Print Assumptions C62_index.
Example c62_ex : choose 5000000 8 = CSizes 625024 8 /\ set_sizes 5000000 625024 8 = repeat 625024%Z 7 ++ [624832%Z].
Proof. vm_compute. auto. Qed.

(** ** Round trip *)
Section Trip.
Context {A : Type}.
Lemma rd_len (m : nat -> A) o n : length (rd m o n) = n.
Proof. unfold rd. rewrite map_length, seq_length. auto. Qed.
Lemma rd_app (m : nat -> A) o a b : rd m o (a + b) = rd m o a ++ rd m (o + a) b.
Proof. unfold rd. rewrite seq_app, map_app. auto. Qed.
Lemma rd_ext (m m1 : nat -> A) o n : (forall i, o <= i < o + n -> m1 i = m i) -> rd m1 o n = rd m o n.
Proof. intros H. unfold rd. apply map_ext_in. intros i I. apply in_seq in I. auto. Qed.
Lemma rd_wr_same (m : nat -> A) o l : rd (wr m o l) o (length l) = l.
Proof.
  unfold rd. apply nth_ext with (d := m 0) (d' := m 0); [rewrite map_length, seq_length; auto|].
  intros i I. rewrite map_length, seq_length in I. rewrite (nth_indep _ (m 0) (wr m o l 0)) by (rewrite map_length, seq_length; auto).
  rewrite map_nth, seq_nth by auto. unfold wr.
  rewrite (proj2 (Nat.leb_le _ _)), (proj2 (Nat.ltb_lt _ _)) by lia. cbn [andb]. replace (o + i - o) with i by lia. apply nth_indep. auto.
Qed.
Lemma rd_wr_other (m : nat -> A) o l o2 n : o2 + n <= o \/ o + length l <= o2 -> rd (wr m o l) o2 n = rd m o2 n.
Proof.
  intros H. apply rd_ext. intros i I. unfold wr. destruct (Nat.leb_spec o i), (Nat.ltb_spec i (o + length l)); auto. lia.
Qed.

Variable comp : list A -> list A.
Variable decomp : list A -> nat -> list A.
Variable bound : nat -> nat.
Variable xsum : list A -> N.
Hypothesis comp_ok : forall l, decomp (comp l) (length l) = l.
Hypothesis comp_bound : forall l, length (comp l) <= bound (length l).
Notation compressed := (compressed comp).
Notation place := (place bound).

Lemma place_nth sizes : forall u c i b, nth_error (place u c sizes) i = Some b -> u <= sb_u b /\ c <= sb_c b.
Proof.
  induction sizes as [|n r IH]; intros u c [|i] b E; cbn in E; try discriminate.
  - injection E as <-. cbn. lia.
  - apply IH in E. lia.
Qed.
Lemma place_order sizes : forall u c i j a b, nth_error (place u c sizes) i = Some a -> nth_error (place u c sizes) j = Some b -> i < j ->
  sb_c a + bound (sb_n a) <= sb_c b.
Proof.
  induction sizes as [|n r IH]; intros u c [|i] [|j] a b E F L; cbn in E, F; try discriminate; try lia.
  - injection E as <-. apply place_nth in F. cbn. lia.
  - eapply IH; eauto. lia.
Qed.
Lemma comp_len d b : length (compressed d b) <= bound (sb_n b).
Proof. unfold SubModel.compressed. etransitivity; [apply comp_bound|]. rewrite rd_len. auto. Qed.

(** Whatever the order in which the workers do the blocks. *)
Lemma blocks_done d bs order : forall m j b,
  (forall i k a e, nth_error bs i = Some a -> nth_error bs k = Some e -> i < k -> sb_c a + bound (sb_n a) <= sb_c e) ->
  nth_error bs j = Some b -> In j order \/ rd m (sb_c b) (length (compressed d b)) = compressed d b ->
  rd (fold_left (do_block comp d bs) order m) (sb_c b) (length (compressed d b)) = compressed d b.
Proof.
  induction order as [|i order IH]; intros m j b O E H; cbn [fold_left].
  - destruct H as [[]|H]; auto.
  - apply (IH _ j b O E). destruct (Nat.eq_dec i j) as [->|n].
    + right. unfold do_block. rewrite E. apply rd_wr_same.
    + destruct H as [[H|H]|H]; [congruence|auto|]. right. rewrite <- H at 2. unfold do_block.
      destruct (nth_error bs i) as [a|] eqn:F; auto. apply rd_wr_other.
      pose proof (comp_len d a). pose proof (comp_len d b).
      destruct (Nat.lt_ge_cases i j) as [L|L]; [right|left].
      * specialize (O i j a b F E L). lia.
      * assert (L2 : j < i) by lia. specialize (O j i b a E F L2). lia.
Qed.

Lemma squeeze_ok d bs : forall m dst,
  (forall i k a e, nth_error bs i = Some a -> nth_error bs k = Some e -> i < k -> sb_c a + bound (sb_n a) <= sb_c e) ->
  (forall b, hd_error bs = Some b -> dst <= sb_c b) ->
  (forall j b, nth_error bs j = Some b -> rd m (sb_c b) (length (compressed d b)) = compressed d b) ->
  let r := squeeze comp d m dst bs in
  dst <= snd r /\ rd (fst r) 0 (snd r) = rd m 0 dst ++ concat (map (compressed d) bs).
Proof.
  induction bs as [|b r IH]; intros m dst O H R; cbn [squeeze].
  - cbn. rewrite app_nil_r. auto.
  - cbv zeta. rewrite (R 0 b eq_refl). set (x := compressed d b). set (m1 := wr m dst x).
    assert (HB : dst <= sb_c b) by (apply H; reflexivity).
    assert (LB : length x <= bound (sb_n b)) by (apply comp_len).
    destruct (IH m1 (dst + length x)) as [L E].
    + intros i k a e I K J. apply (O (S i) (S k) a e); auto. lia.
    + intros e He. destruct r as [|e0 r]; [discriminate|]. injection He as ->. specialize (O 0 1 b e eq_refl eq_refl). lia.
    + intros j e He. unfold m1. rewrite rd_wr_other; [exact (R (S j) e He)|]. right.
      assert (sb_c b + bound (sb_n b) <= sb_c e) by (apply (O 0 (S j) b e); auto; lia). lia.
    + cbv zeta in E. split; [lia|]. rewrite E. rewrite rd_app. unfold m1 at 2. cbn [Nat.add]. rewrite rd_wr_same.
      unfold m1. rewrite rd_wr_other by lia. cbn [map concat]. rewrite <- app_assoc. auto.
Qed.

Lemma decomp_ok d sizes : forall u c rest,
  decompress_all decomp xsum (concat (map (compressed d) (place u c sizes)) ++ rest)
    (map (fun b => (sb_n b, length (compressed d b), xsum (compressed d b))) (place u c sizes)) =
  Some (rd d u (fold_right Nat.add 0 sizes)).
Proof.
  induction sizes as [|n r IH]; intros u c rest; cbn [SubModel.place map concat decompress_all fold_right sb_n]; auto.
  set (b := mkSblk u n c). rewrite <- app_assoc.
  rewrite firstn_app, Nat.sub_diag, firstn_O, app_nil_r, firstn_all, N.eqb_refl.
  rewrite skipn_app, Nat.sub_diag, skipn_all. cbn [skipn app]. rewrite IH. f_equal. rewrite rd_app. f_equal.
  unfold b, SubModel.compressed. cbn [sb_u sb_n]. replace n with (length (rd d u n)) at 2 by apply rd_len. apply comp_ok.
Qed.

Lemma trip d m sizes order : sizes <> [] -> (forall i, i < length sizes -> In i order) ->
  let r := compress_all comp bound xsum d m sizes order in
  decompress_all decomp xsum (fst r) (snd r) = Some (rd d 0 (fold_right Nat.add 0 sizes)).
Proof.
  intros NE O. cbv zeta. unfold compress_all. cbn [fst snd].
  assert (PL : forall u c l, length (place u c l) = length l) by (intros u c l; revert u c; induction l; cbn; auto).
  assert (PO := place_order sizes 0 0).
  assert (D : forall j b, nth_error (place 0 0 sizes) j = Some b ->
    rd (fold_left (do_block comp d (place 0 0 sizes)) order m) (sb_c b) (length (compressed d b)) = compressed d b).
  { intros j b E. apply (blocks_done d _ order m j b PO E). left. apply O. rewrite <- (PL 0 0 sizes). apply nth_error_Some. congruence. }
  set (m1 := fold_left _ order m) in *.
  enough (E : rd (fst (match place 0 0 sizes with [] => (m1, 0) | b :: bs' => squeeze comp d m1 (length (compressed d b)) bs' end)) 0
                 (snd (match place 0 0 sizes with [] => (m1, 0) | b :: bs' => squeeze comp d m1 (length (compressed d b)) bs' end))
              = concat (map (compressed d) (place 0 0 sizes))).
  { rewrite E. rewrite <- (app_nil_r (concat _)). apply decomp_ok. }
  destruct sizes as [|n r]; [congruence|]. cbn [SubModel.place] in *. set (b := mkSblk 0 n 0) in *.
  destruct (squeeze_ok d (place (0 + n) (0 + bound n) r) m1 (length (compressed d b))) as [_ E].
  - intros i k a e I K J. apply (PO (S i) (S k) a e); auto. lia.
  - intros e He. assert (nth_error (place (0 + n) (0 + bound n) r) 0 = Some e) as F by (destruct (place (0 + n) (0 + bound n) r); auto).
    apply place_nth in F. pose proof (comp_len d b). cbn [sb_n b] in H. lia.
  - intros j e E. apply (D (S j) e). auto.
  - cbv zeta in E. rewrite E. cbn [map concat]. f_equal. apply (D 0 b). auto.
Qed.
End Trip.

(** What was compressed block by block, in any order and by any number of workers, and
    squeezed together decompresses to what it was: for every compressor that keeps to
    its bound and can be undone, every checksum, all sizes, whatever was in the buffer
    before. *)
Theorem C62_round_trip : forall (A : Type) (comp : list A -> list A) (decomp : list A -> nat -> list A) (bound : nat -> nat) (xsum : list A -> N),
  (forall l, decomp (comp l) (length l) = l) -> (forall l, length (comp l) <= bound (length l)) ->
  forall (d m : nat -> A) sizes order, sizes <> [] -> (forall i, i < length sizes -> In i order) ->
  let r := compress_all comp bound xsum d m sizes order in
  decompress_all decomp xsum (fst r) (snd r) = Some (rd d 0 (fold_right Nat.add 0 sizes)).
Proof. intros. apply trip; auto. Qed.
Print Assumptions C62_round_trip.
Example c62_ex_trip : compress_all (fun l => 7 :: l) (fun n => n + 3) (fun l => N.of_nat (fold_right Nat.add 0 l)) (fun i => 10 + i) (fun _ => 0) [2; 1; 3] [1; 2; 0]
  = ([7; 10; 11; 7; 12; 7; 13; 14; 15], [(2, 3, 28%N); (1, 2, 19%N); (3, 4, 49%N)]).
Proof. vm_compute. reflexivity. Qed.
