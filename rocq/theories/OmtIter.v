(** Iterations, marks and searches of the order maintenance tree. *)
From Verif Require Import Base Bytes PkModel PkProofs OmtModel OmtSpec OmtProofs OmtOps.
From Verif Require LtTreeProofs.
Open Scope nat_scope.

#[local] Arguments anym : simpl never.
Lemma anym_cons {A} (v : A) m l : anym ((v, m) :: l) = m || anym l.
Proof. reflexivity. Qed.

Section Iter.
Context {A X : Type}.
Variable f : A -> nat -> X -> X * Z.
Implicit Types (t : tree A).

Lemma walk_app sel a : forall i b x, walk f sel i (a ++ b) x =
  let (x', z) := walk f sel i a x in if negb (z =? 0)%Z then (x', z) else walk f sel (i + length a) b x'.
Proof.
  induction a as [|[v m] a IH]; intros i b x; cbn [walk app length].
  - cbn. now rewrite Nat.add_0_r.
  - rewrite <- Nat.add_succ_comm. destruct (sel i m); [|apply IH]. destruct (f v i x) as [x' z]. destruct (Z.eqb_spec z 0); cbn [negb].
    + apply IH.
    + destruct (Z.eqb_spec z 0); [congruence|]. reflexivity.
Qed.
Lemma walk_skip sel l : forall i x, (forall j m, i <= j < i + length l -> sel j m = false) -> walk f sel i l x = (x, 0%Z).
Proof.
  induction l as [|[v m] l IH]; intros i x N; cbn [walk]; [reflexivity|]. cbn [length] in N. rewrite N by lia. apply IH. intros. apply N. lia.
Qed.
Lemma walk_skip_m l : forall i x, anym l = false -> walk f (fun _ m => m) i l x = (x, 0%Z).
Proof.
  induction l as [|[v m] l IH]; intros i x N; cbn [walk]; [reflexivity|]. rewrite anym_cons in N. apply orb_false_iff in N as (-> & N). apply IH. exact N.
Qed.
Lemma walk_cons sel v m l i x : walk f sel i ((v, m) :: l) x =
  let (x', z) := if sel i m then f v i x else (x, 0%Z) in if negb (z =? 0)%Z then (x', z) else walk f sel (S i) l x'.
Proof. cbn [walk]. destruct (sel i m); [|reflexivity]. destruct (f v i x) as [x' z]. now destruct (z =? 0)%Z. Qed.

Definition inr_ (lo hi : nat) : nat -> bool -> bool := fun i _ => (lo <=? i) && (i <? hi).
Lemma iterate_internal_ok lo hi : forall t idx x, wt t -> iterate_internal f lo hi t idx x = walk f (inr_ lo hi) idx (melems t) x.
Proof.
  induction t as [|l IL v w m b r IR]; intros idx x W; cbn [iterate_internal melems]; [reflexivity|].
  destruct W as (WL & WR & ->). pose proof (wt_len _ WL) as LL. rewrite <- len_melems in LL.
  rewrite walk_app, LL.
  assert (E : (if lo <? idx + nweight l then iterate_internal f lo hi l idx x else (x, 0%Z)) = walk f (inr_ lo hi) idx (melems l) x).
  { destruct (Nat.ltb_spec lo (idx + nweight l)); [auto|]. symmetry. apply walk_skip. intros j m' J. unfold inr_. apply andb_false_iff. left. apply Nat.leb_gt. lia. }
  rewrite E. destruct (walk f (inr_ lo hi) idx (melems l) x) as [x1 z1]. destruct (negb (z1 =? 0)%Z); [reflexivity|]. rewrite walk_cons.
  change (inr_ lo hi (idx + nweight l) m) with ((lo <=? idx + nweight l) && (idx + nweight l <? hi)).
  destruct (if (lo <=? idx + nweight l) && (idx + nweight l <? hi) then _ else _) as [x2 z2]. destruct (negb (z2 =? 0)%Z); [reflexivity|].
  rewrite <- (Nat.add_1_r (idx + nweight l)). destruct (Nat.ltb_spec (idx + nweight l + 1) hi); [auto|]. symmetry. apply walk_skip. intros j m' J. unfold inr_. apply andb_false_iff. right. apply Nat.ltb_ge. lia.
Qed.
Lemma iterate_array_ok vals start lo hi : forall n i (a ls b : list A) x, vals = a ++ ls ++ b -> length a = start + i -> length ls = n -> lo <= i -> i + n <= hi ->
  iterate_array f vals start i n x = Some (walk f (inr_ lo hi) i (unm ls) x).
Proof.
  induction n as [|n IH]; intros i a ls b x -> LA LN L1 L2; cbn [iterate_array].
  - destruct ls; [reflexivity|discriminate].
  - destruct ls as [|v ls]; [discriminate|]. cbn [app]. rewrite (nth_mid a) by lia. cbn [unm map]. rewrite walk_cons. unfold inr_ at 1.
    destruct (Nat.leb_spec lo i); [|lia]. destruct (Nat.ltb_spec i hi); [|lia]. cbn [andb]. destruct (f v i x) as [x' z].
    destruct (negb (z =? 0)%Z); [reflexivity|]. change (map (fun v0 => (v0, false)) ls) with (unm ls).
    apply (IH (S i) (a ++ [v]) ls b); [rewrite <- !app_assoc; reflexivity|rewrite app_length; cbn; lia|now injection LN|lia|lia].
Qed.
Lemma iterate_ok sm o ml lo hi x : Rep sm o ml -> lo < hi -> hi <= length ml ->
  iterate_on_range f o lo hi x = Some (inl (walk f (inr_ lo hi) 0 ml x)).
Proof.
  intros R L1 L2. unfold iterate_on_range. rewrite (Rep_size _ _ _ R). destruct (Nat.ltb_spec (length ml) hi); [lia|]. destruct (Nat.eqb_spec lo hi); [lia|].
  destruct o as [cap start num vals|cap t free]; cbn [Rep] in R.
  - destruct R as (_ & ls & (L & a & b & -> & LA & EN) & ->). rewrite unm_len in *.
    destruct (split_len ls lo) as (l1 & l23 & -> & LL1); [lia|]. rewrite app_length in *.
    destruct (split_len l23 (hi - lo)) as (l2 & l3 & -> & LL2); [lia|].
    rewrite (iterate_array_ok _ start lo hi (hi - lo) lo (a ++ l1) l2 (l3 ++ b)); try lia; [|rewrite <- !app_assoc; reflexivity|rewrite app_length; lia].
    f_equal. f_equal. rewrite !unm_app, walk_app, (walk_skip (inr_ lo hi) (unm l1)).
    2:{ intros j m J. rewrite unm_len in J. unfold inr_. apply andb_false_iff. left. apply Nat.leb_gt. lia. }
    cbn [Z.eqb negb]. rewrite walk_app, unm_len, LL1. cbn [Nat.add]. destruct (walk f (inr_ lo hi) lo (unm l2) x) as [x' z].
    destruct (Z.eqb_spec z 0); cbn [negb]; [|reflexivity]. rewrite (walk_skip (inr_ lo hi) (unm l3)); [now subst|].
    intros j m J. rewrite !unm_len in J. unfold inr_. apply andb_false_iff. right. apply Nat.ltb_ge. lia.
  - destruct R as (W & _ & -> & _). now rewrite iterate_internal_ok.
Qed.
Lemma iterate_backwards sm o ml lo hi x : Rep sm o ml -> hi < lo -> hi <= length ml -> iterate_on_range f o lo hi x = Some (inl (x, 0%Z)).
Proof.
  intros R L1 L2. unfold iterate_on_range. rewrite (Rep_size _ _ _ R). destruct (Nat.ltb_spec (length ml) hi); [lia|]. destruct (Nat.eqb_spec lo hi); [lia|].
  destruct o as [cap start num vals|cap t free]; cbn [Rep] in R.
  - replace (hi - lo) with 0 by lia. reflexivity.
  - destruct R as (W & _ & -> & _). rewrite iterate_internal_ok by auto. rewrite walk_skip; [reflexivity|].
    intros j m J. unfold inr_. apply andb_false_iff. destruct (Nat.leb_spec lo j); [right; apply Nat.ltb_ge; lia|auto].
Qed.

Lemma over_marked_ok : forall t idx x, wt t -> mk t -> over_marked f t idx x = walk f (fun _ m => m) idx (melems t) x.
Proof.
  induction t as [|l IL v w m b r IR]; intros idx x W M; cbn [over_marked melems]; [reflexivity|].
  destruct W as (WL & WR & ->). destruct M as (ML & MR & ->). pose proof (wt_len _ WL) as LL. rewrite <- len_melems in LL.
  rewrite walk_app, LL.
  assert (E : (if anym (melems l) || anym (melems r) then over_marked f l idx x else (x, 0%Z)) = walk f (fun _ m => m) idx (melems l) x).
  { destruct (anym (melems l) || anym (melems r)) eqn:Q; [auto|]. apply orb_false_iff in Q as (Q & _). symmetry. now apply walk_skip_m. }
  rewrite E. destruct (walk f _ idx (melems l) x) as [x1 z1]. destruct (negb (z1 =? 0)%Z); [reflexivity|]. rewrite walk_cons, <- (Nat.add_1_r (idx + nweight l)).
  destruct (if m then _ else _) as [x2 z2]. destruct (negb (z2 =? 0)%Z); [reflexivity|].
  destruct (anym (melems l) || anym (melems r)) eqn:Q; [auto|]. apply orb_false_iff in Q as (_ & Q). symmetry. now apply walk_skip_m.
Qed.

Lemma walk_mark_app lo hi a : forall i b x, walk_mark f lo hi i (a ++ b) x =
  let '(a', x', z) := walk_mark f lo hi i a x in
  if negb (z =? 0)%Z then (a' ++ b, x', z) else let '(b', x', z) := walk_mark f lo hi (i + length a) b x' in (a' ++ b', x', z).
Proof.
  induction a as [|[v m] a IH]; intros i b x; cbn [walk_mark app length].
  - cbn. rewrite Nat.add_0_r. now destruct (walk_mark f lo hi i b x) as [[? ?] ?].
  - rewrite <- Nat.add_succ_comm. rewrite IH. destruct ((lo <=? i) && (i <? hi)).
    + destruct (f v i x) as [x' z]. destruct (Z.eqb_spec z 0).
      * rewrite IH. destruct (walk_mark f lo hi (S i) a x') as [[a' x2] z2]. destruct (negb (z2 =? 0)%Z); [reflexivity|].
        now destruct (walk_mark f lo hi (S i + length a) b x2) as [[? ?] ?].
      * destruct (Z.eqb_spec z 0); [congruence|]. reflexivity.
    + destruct (walk_mark f lo hi (S i) a x) as [[a' x2] z2]. destruct (negb (z2 =? 0)%Z); [reflexivity|].
      now destruct (walk_mark f lo hi (S i + length a) b x2) as [[? ?] ?].
Qed.
Lemma walk_mark_skip lo hi l : forall i x, (forall j, i <= j < i + length l -> (lo <=? j) && (j <? hi) = false) -> walk_mark f lo hi i l x = (l, x, 0%Z).
Proof.
  induction l as [|[v m] l IH]; intros i x N; cbn [walk_mark]; [reflexivity|]. cbn [length] in N. rewrite N by lia. rewrite IH; [reflexivity|]. intros. apply N. lia.
Qed.
Lemma mark_internal_ok lo hi : lo < hi -> forall t idx x, wt t -> mk t -> lo < idx + nweight t -> idx < hi -> t <> Nul ->
  exists t' x' z, mark_internal f lo hi t idx x = Some (t', x', z) /\ walk_mark f lo hi idx (melems t) x = (melems t', x', z) /\
    wt t' /\ mk t' /\ nweight t' = nweight t /\ anym (melems t') = true.
Proof.
  intros LH. induction t as [|l IL v w m b r IR]; intros idx x W M L1 L2 NN; [congruence|].
  destruct W as (WL & WR & ->). destruct M as (ML & MR & EB). pose proof (wt_len _ WL) as LL. rewrite <- len_melems in LL.
  pose proof (wt_len _ WR) as LR. rewrite <- len_melems in LR. cbn [nweight] in L1.
  cbn [mark_internal melems]. rewrite walk_mark_app. set (root := idx + nweight l).
  match goal with |- context [match ?Y with Some _ => _ | None => _ end] => set (left := Y) end.
  assert (E : exists l' b' x1 z1, left = Some (l', b', x1, z1) /\ walk_mark f lo hi idx (melems l) x = (melems l', x1, z1) /\ wt l' /\ mk l' /\
     nweight l' = nweight l /\ b' = anym (melems l') || anym (melems r) /\ (z1 <> 0%Z -> anym (melems l') = true) /\ (lo < root -> l <> Nul -> anym (melems l') = true)).
  { unfold left. destruct ((lo <? root) && negb (is_null l)) eqn:Q.
    - apply andb_true_iff in Q as (Q1 & Q2). apply Nat.ltb_lt in Q1. destruct (IL idx x WL ML) as (l' & x1 & z1 & -> & E1 & W1 & M1 & N1 & A1); auto.
      { destruct l; [discriminate|congruence]. }
      exists l', true, x1, z1. rewrite A1. split; [reflexivity|]. auto 10.
    - exists l, b, x, 0%Z. split; [reflexivity|]. split; [|split; [auto|split; [auto|split; [auto|split; [exact EB|split; [congruence|]]]]]].
      + destruct l as [|ll lv lw lm lb lr]; [reflexivity|]. cbn [is_null negb] in Q. rewrite andb_true_r in Q. apply Nat.ltb_ge in Q.
        apply walk_mark_skip. intros j J. rewrite LL in J. apply andb_false_iff. left. apply Nat.leb_gt. unfold root in Q. lia.
      + intros Q1 Q2. destruct (Nat.ltb_spec lo root); [|lia]. destruct l; [congruence|discriminate]. }
  destruct E as (l' & b' & x1 & z1 & -> & -> & W1 & M1 & N1 & -> & A1 & A2).
  destruct (negb (z1 =? 0)%Z) eqn:Z1.
  { assert (NZ : z1 <> 0%Z) by (intros ->; discriminate). eexists _, _, _. split; [reflexivity|]. cbn. split; [reflexivity|].
    rewrite N1, anym_app, (A1 NZ). auto 10. }
  rewrite LL. fold root. cbn [walk_mark]. destruct ((lo <=? root) && (root <? hi)) eqn:Q.
  - destruct (f v root x1) as [x2 z2]. destruct (Z.eqb_spec z2 0) as [EZ|EZ]; cbn [negb].
    + destruct ((root + 1 <? hi) && negb (is_null r)) eqn:Q2.
      * apply andb_true_iff in Q2 as (Q2 & Q3). apply Nat.ltb_lt in Q2. assert (NR : r <> Nul) by (destruct r; [discriminate|congruence]).
        destruct (IR (root + 1) x2 WR MR) as (r' & x3 & z3 & -> & E3 & W3 & M3 & N3 & A3); auto.
        { unfold root. destruct r; [congruence|]. destruct WR as (_ & _ & ->). cbn [nweight] in *. apply andb_true_iff in Q as (Q & _). apply Nat.leb_le in Q. unfold root in Q. lia. }
        rewrite Nat.add_1_r in E3. rewrite E3. eexists _, _, _. split; [reflexivity|]. cbn. split; [reflexivity|]. rewrite N1, N3, anym_app, anym_cons. rewrite A3, !orb_true_r. auto 10.
      * rewrite walk_mark_skip.
        { eexists _, _, _. split; [reflexivity|]. cbn. split; [reflexivity|]. rewrite N1, anym_app, anym_cons. cbn [orb]. rewrite !orb_true_r. auto 10. }
        intros j J. rewrite LR in J. apply andb_false_iff. apply andb_false_iff in Q2 as [Q2|Q2]; [right; apply Nat.ltb_ge in Q2; apply Nat.ltb_ge; lia|].
        destruct r; [|discriminate]. cbn in J. lia.
    + eexists _, _, _. split; [reflexivity|]. cbn. split; [reflexivity|]. rewrite N1, anym_app, anym_cons. cbn [orb]. rewrite !orb_true_r. auto 10.
  - cbn [negb Z.eqb]. destruct ((root + 1 <? hi) && negb (is_null r)) eqn:Q2.
    + apply andb_true_iff in Q2 as (Q2 & Q3). apply Nat.ltb_lt in Q2. assert (NR : r <> Nul) by (destruct r; [discriminate|congruence]).
      destruct (IR (root + 1) x1 WR MR) as (r' & x3 & z3 & -> & E3 & W3 & M3 & N3 & A3); auto.
      { unfold root. lia. }
      rewrite Nat.add_1_r in E3. rewrite E3. eexists _, _, _. split; [reflexivity|]. cbn. split; [reflexivity|]. rewrite N1, N3, anym_app, anym_cons. rewrite A3, !orb_true_r. auto 10.
    + rewrite walk_mark_skip.
      { eexists _, _, _. split; [reflexivity|]. cbn. split; [reflexivity|]. rewrite N1, anym_app.
        assert (AL : anym (melems l') = true).
        { assert (C : lo < root).
          { apply andb_false_iff in Q as [Q|Q]; [apply Nat.leb_gt in Q; unfold root in *|apply Nat.ltb_ge in Q; lia].
            exfalso. apply andb_false_iff in Q2 as [Q2|Q2]; [apply Nat.ltb_ge in Q2; lia|]. destruct r; [|discriminate]. cbn in L1. lia. }
          apply A2; auto. intros ->. cbn in *. unfold root in C. cbn in C. apply andb_false_iff in Q as [Q|Q]; [apply Nat.leb_gt in Q|apply Nat.ltb_ge in Q]; unfold root in Q; cbn in Q; lia. }
        rewrite AL. cbn. auto 10. }
      intros j J. rewrite LR in J. apply andb_false_iff. apply andb_false_iff in Q2 as [Q2|Q2]; [right; apply Nat.ltb_ge in Q2; apply Nat.ltb_ge; lia|].
      destruct r; [|discriminate]. cbn in J. lia.
Qed.
Lemma mark_ok o ml lo hi x : Rep true o ml -> lo < hi -> hi <= length ml ->
  exists o' ml' x' z, iterate_and_mark_range f o lo hi x = Some (o', inl (x', z)) /\ walk_mark f lo hi 0 ml x = (ml', x', z) /\ Rep true o' ml'.
Proof.
  intros R L1 L2. unfold iterate_and_mark_range. rewrite (Rep_size _ _ _ R). destruct (Nat.ltb_spec (length ml) hi); [lia|]. destruct (Nat.eqb_spec lo hi); [lia|].
  pose proof (Rep_size _ _ _ R) as SZ. destruct o as [cap start num vals|cap t free]; cbn [Rep] in R; [destruct R; discriminate|].
  destruct R as (W & M & -> & _). cbn in SZ. destruct (mark_internal_ok lo hi L1 t 0 x W M) as (t' & x' & z & -> & E & W' & M' & N' & _); try lia.
  { destruct t; [cbn in *; lia|congruence]. }
  exists (Tre cap t' free), (melems t'), x', z. split; [reflexivity|]. split; [exact E|]. cbn. split; auto. split; auto. split; auto. discriminate.
Qed.
End Iter.

Section IterPtr.
Context {A X : Type}.
Variable g : A -> nat -> X -> A * X * Z.
Implicit Types (t : tree A).
Lemma walk_change_app a : forall i b x, walk_change g i (a ++ b) x =
  do (a', x') <- walk_change g i a x; do (b', x') <- walk_change g (i + length a) b x'; Some (a' ++ b', x').
Proof.
  induction a as [|[v m] a IH]; intros i b x; cbn [walk_change app length].
  - rewrite Nat.add_0_r. now destruct (walk_change g i b x) as [[? ?]|].
  - rewrite <- Nat.add_succ_comm. destruct (g v i x) as [[v' x'] z]. destruct (z =? 0)%Z; [|reflexivity]. rewrite IH.
    destruct (walk_change g (S i) a x') as [[a' x2]|]; [|reflexivity]. now destruct (walk_change g (S i + length a) b x2) as [[? ?]|].
Qed.
Lemma walk_change_snd l : forall i x l' x', walk_change g i l x = Some (l', x') -> map snd l' = map snd l.
Proof.
  induction l as [|[v m] l IH]; intros i x l' x' E; cbn [walk_change] in E; [injection E as <- _; reflexivity|].
  destruct (g v i x) as [[v' x1] z]. destruct (z =? 0)%Z; [|discriminate]. destruct (walk_change g (S i) l x1) as [[l2 x2]|] eqn:E2; [|discriminate].
  injection E as <- _. cbn. f_equal. eauto.
Qed.
Lemma snd_len (a b : list (A * bool)) : map snd a = map snd b -> length a = length b.
Proof. intros E. apply (f_equal (@length _)) in E. now rewrite !map_length in E. Qed.
Lemma snd_anym (a b : list (A * bool)) : map snd a = map snd b -> anym a = anym b.
Proof. revert b. induction a as [|[v m] a IH]; intros [|[v' m'] b] E; try discriminate; auto. cbn in E. injection E as -> E. rewrite !anym_cons. f_equal. now apply IH. Qed.

Lemma iterate_ptr_internal_ok lo hi : forall t idx x, wt t -> mk t -> lo <= idx -> idx + nweight t <= hi ->
  match iterate_ptr_internal g lo hi t idx x with
  | Some (t', x') => walk_change g idx (melems t) x = Some (melems t', x') /\ wt t' /\ mk t' /\ nweight t' = nweight t /\ (nob t -> nob t')
  | None => walk_change g idx (melems t) x = None
  end.
Proof.
  induction t as [|l IL v w m b r IR]; intros idx x W M L1 L2; cbn [iterate_ptr_internal melems]; [cbn; auto|].
  destruct W as (WL & WR & ->). destruct M as (ML & MR & ->). pose proof (wt_len _ WL) as LL. rewrite <- len_melems in LL. cbn [nweight] in L2.
  pose proof (wt_len _ WR) as LR. rewrite <- len_melems in LR.
  rewrite walk_change_app. cbn [walk_change]. rewrite LL.
  specialize (IL idx x WL ML L1 ltac:(lia)).
  assert (E : (if lo <? idx + nweight l then iterate_ptr_internal g lo hi l idx x else Some (l, x)) = iterate_ptr_internal g lo hi l idx x).
  { destruct (Nat.ltb_spec lo (idx + nweight l)); auto. assert (Z : nweight l = 0) by lia. apply (null_weight _ WL) in Z. destruct l; [reflexivity|discriminate]. }
  rewrite E. clear E. destruct (iterate_ptr_internal g lo hi l idx x) as [[l' x1]|]; [|now rewrite IL].
  destruct IL as (E1 & W1 & M1 & N1 & B1). rewrite E1. apply walk_change_snd, snd_anym in E1. destruct (Nat.leb_spec lo (idx + nweight l)); [|lia]. destruct (Nat.ltb_spec (idx + nweight l) hi); [|lia]. cbn [andb].
  destruct (g v (idx + nweight l) x1) as [[v' x2] z]. destruct (z =? 0)%Z; [|reflexivity].
  specialize (IR (idx + nweight l + 1) x2 WR MR ltac:(lia) ltac:(lia)). rewrite <- (Nat.add_1_r (idx + nweight l)).
  assert (E : (if idx + nweight l + 1 <? hi then iterate_ptr_internal g lo hi r (idx + nweight l + 1) x2 else Some (r, x2)) = iterate_ptr_internal g lo hi r (idx + nweight l + 1) x2).
  { destruct (Nat.ltb_spec (idx + nweight l + 1) hi); auto. assert (Z : nweight r = 0) by lia. apply (null_weight _ WR) in Z. destruct r; [reflexivity|discriminate]. }
  rewrite E. clear E. destruct (iterate_ptr_internal g lo hi r (idx + nweight l + 1) x2) as [[r' x3]|]; [|now rewrite IR].
  destruct IR as (E3 & W3 & M3 & N3 & B3). rewrite E3. apply walk_change_snd, snd_anym in E3. cbn. split; [reflexivity|]. rewrite N1, N3. split; [auto|]. split; [|split; [reflexivity|]].
  - split; auto. split; auto. now rewrite E1, E3.
  - intros (NL & NR & -> & ->). auto.
Qed.
Lemma iterate_ptr_array_ok start : forall n i (a ls b : list A) x, length a = start + i -> length ls = n ->
  match iterate_ptr_array g (a ++ ls ++ b) start i n x with
  | Some (vals', x') => exists ls', walk_change g i (unm ls) x = Some (unm ls', x') /\ vals' = a ++ ls' ++ b /\ length ls' = n
  | None => walk_change g i (unm ls) x = None
  end.
Proof.
  induction n as [|n IH]; intros i a ls b x LA LN; cbn [iterate_ptr_array].
  - destruct ls; [|discriminate]. exists []. auto.
  - destruct ls as [|v ls]; [discriminate|]. cbn [app]. rewrite (nth_mid a) by lia. cbn [unm map walk_change]. destruct (g v i x) as [[v' x'] z].
    destruct (z =? 0)%Z; [|reflexivity]. rewrite (blit1 a) by lia. change (map (fun v0 => (v0, false)) ls) with (unm ls).
    specialize (IH (S i) (a ++ [v']) ls b x'). rewrite app_length in IH. cbn [length] in IH, LN. specialize (IH ltac:(lia) ltac:(lia)).
    rewrite <- app_assoc in IH. cbn [app] in IH. destruct (iterate_ptr_array g (a ++ v' :: ls ++ b) start (S i) n x') as [[vals' x2]|]; [|now rewrite IH].
    destruct IH as (ls' & -> & -> & L'). exists (v' :: ls'). split; [reflexivity|]. split; [rewrite <- app_assoc; reflexivity|cbn; lia].
Qed.
Lemma iterate_ptr_ok sm o ml x : Rep sm o ml ->
  match iterate_ptr g o x with
  | Some (o', x') => exists ml', walk_change g 0 ml x = Some (ml', x') /\ Rep sm o' ml'
  | None => walk_change g 0 ml x = None
  end.
Proof.
  intros R. destruct o as [cap start num vals|cap t free]; cbn [Rep] in R; cbn [iterate_ptr].
  - destruct R as (S & ls & (L & a & b & -> & LA & EN) & ->). pose proof (iterate_ptr_array_ok start num 0 a ls b x ltac:(lia) (eq_sym EN)) as H.
    destruct (iterate_ptr_array g (a ++ ls ++ b) start 0 num x) as [[vals' x']|]; [|exact H]. destruct H as (ls' & E & -> & L').
    exists (unm ls'). split; auto. cbn [Rep]. split; auto. exists ls'. split; [|auto]. split; [rewrite <- L, !app_length; lia|]. exists a, b. auto.
  - destruct R as (W & M & -> & N). pose proof (iterate_ptr_internal_ok 0 (nweight t) t 0 x W M ltac:(lia) ltac:(lia)) as H.
    destruct (iterate_ptr_internal g 0 (nweight t) t 0 x) as [[t' x']|]; [|exact H]. destruct H as (E & W' & M' & _ & B').
    exists (melems t'). split; auto. cbn. split; auto.
Qed.
End IterPtr.

(** ** marks *)
Section Marks.
Context {A : Type}.
Variable junk : nat -> A.
Implicit Types (t : tree A).
Fixpoint mpos (i : nat) (ml : list (A * bool)) : list nat :=
  match ml with [] => [] | (_, m) :: ml => (if m then [i] else []) ++ mpos (S i) ml end.
Lemma mpos_app a : forall i b, mpos i (a ++ b) = mpos i a ++ mpos (i + length a) b.
Proof.
  induction a as [|[v m] a IH]; intros i b; cbn [mpos app length]; [now rewrite Nat.add_0_r|]. rewrite IH, <- Nat.add_succ_comm, app_assoc. reflexivity.
Qed.
Lemma mpos_none l : forall i, anym l = false -> mpos i l = [].
Proof. induction l as [|[v m] l IH]; intros i N; cbn [mpos]; [reflexivity|]. rewrite anym_cons in N. apply orb_false_iff in N as (-> & N). now apply IH. Qed.
Lemma unmark_ok : forall t idx, wt t -> mk t -> exists t', unmark t idx = (t', mpos idx (melems t)) /\ wt t' /\ nob t' /\ elems t' = elems t /\ nweight t' = nweight t.
Proof.
  induction t as [|l IL v w m b r IR]; intros idx W M; cbn [unmark melems]; [exists Nul; cbn; auto|].
  destruct W as (WL & WR & ->). destruct M as (ML & MR & ->). pose proof (wt_len _ WL) as LL. rewrite <- len_melems in LL.
  rewrite mpos_app, LL. cbn [mpos]. destruct (anym (melems l) || anym (melems r)) eqn:Q.
  - destruct (IL idx WL ML) as (l' & -> & W1 & N1 & E1 & Q1). destruct (IR (idx + nweight l + 1) WR MR) as (r' & -> & W2 & N2 & E2 & Q2).
    eexists. rewrite <- (Nat.add_1_r (idx + nweight l)). split; [reflexivity|]. cbn. rewrite Q1, Q2, E1, E2. auto 10.
  - apply orb_false_iff in Q as (QL & QR). rewrite (mpos_none (melems l)), (mpos_none (melems r)) by auto.
    eexists. split; [reflexivity|]. cbn. pose proof (mk_nob _ ML QL). pose proof (mk_nob _ MR QR). auto 10.
Qed.
Lemma nob_barf sm o (ls : list A) : U o ls -> smok sm o -> barf sm o = true.
Proof. intros H S. rewrite (barf_ok sm o (unm ls)) by now apply U_Rep. now rewrite anym_unm. Qed.
Lemma delete_indexes_ok : forall (rest : list (A * bool)) o kept i p, U o (kept ++ map fst rest) -> smok true o -> length kept + i = p ->
  exists o', delete_indexes junk true o (mpos p rest) i = Some o' /\ U o' (kept ++ map fst (filter (fun x => negb (snd x)) rest)) /\ smok true o'.
Proof.
  induction rest as [|[v m] rest IH]; intros o kept i p H S LP; cbn [mpos filter map snd negb fst] in *.
  - exists o. auto.
  - destruct m; cbn [app delete_indexes].
    + destruct (delete_at_ok junk true o _ (p - i) H S (nob_barf _ _ _ H S)) as (o1 & -> & H1 & S1); [rewrite app_length; cbn; lia|].
      rewrite rm_mid in H1 by lia. apply (IH o1 kept (Datatypes.S i) (Datatypes.S p) H1 S1). lia.
    + destruct (IH o (kept ++ [v]) i (Datatypes.S p)) as (o' & E & H' & S'); auto.
      * rewrite <- app_assoc. exact H.
      * rewrite app_length. cbn. lia.
      * exists o'. split; auto. split; auto. rewrite <- app_assoc in H'. exact H'.
Qed.
Lemma delete_all_marked_ok o ml : Rep true o ml ->
  exists o', delete_all_marked junk true o = Some o' /\ Rep true o' (filter (fun x => negb (snd x)) ml).
Proof.
  intros R. unfold delete_all_marked. rewrite (has_marks_ok _ _ _ R). destruct (anym ml) eqn:Q; cbn [negb].
  - destruct o as [cap start num vals|cap t free]; cbn [Rep] in R; [destruct R; discriminate|]. destruct R as (W & M & -> & _).
    destruct (unmark_ok t 0 W M) as (t' & -> & W' & N' & E' & _).
    destruct (delete_indexes_ok (melems t) (Tre cap t' free) [] 0 0) as (o' & -> & H & S); auto.
    { cbn. split; auto. split; auto. now rewrite E', elems_melems. }
    { exact Logic.I. }
    rewrite (nob_barf _ _ _ H S). exists o'. split; auto.
    assert (F : unm (map fst (filter (fun x => negb (snd x)) (melems t))) = filter (fun x => negb (snd x)) (melems t)).
    { symmetry. apply unm_of. clear. induction (melems t) as [|[v m] l IH]; [reflexivity|]. cbn [filter snd negb]. destruct m; cbn [negb]; [exact IH|]. now rewrite anym_cons. }
    rewrite <- F. now apply U_Rep.
  - exists o. split; auto. assert (F : filter (fun x => negb (snd x)) ml = ml).
    { clear - Q. induction ml as [|[v m] l IH]; [reflexivity|]. rewrite anym_cons in Q. apply orb_false_iff in Q as (-> & Q). cbn. f_equal. auto. }
    now rewrite F.
Qed.
End Marks.

(** ** searches *)
Section Find.
Context {A : Type}.
Variable h : A -> Z.
Implicit Types (t : tree A).
Notation R := (fun a b => (Z.sgn (h a) <= Z.sgn (h b))%Z).

Lemma mono_mid a v b : monotone h (a ++ v :: b) ->
  monotone h a /\ monotone h b /\ Forall (fun x => (Z.sgn (h x) <= Z.sgn (h v))%Z) a /\ Forall (fun x => (Z.sgn (h v) <= Z.sgn (h x))%Z) b.
Proof.
  unfold monotone. intros M. apply LtTreeProofs.SS_app in M as (MA & MB & D). apply StronglySorted_inv in MB as (MB & F).
  split; auto. split; auto. split; auto. apply Forall_forall. intros x IN. apply D; auto. now left.
Qed.
Definition zspec (l : list A) (q : rc * option A * nat) : Prop :=
  match q with
  | (Ok, Some v, i) => exists a b, l = a ++ v :: b /\ length a = i /\ h v = 0%Z /\ Forall (fun x => (h x < 0)%Z) a
  | (Notfound, None, i) => exists a b, l = a ++ b /\ length a = i /\ Forall (fun x => (h x < 0)%Z) a /\ Forall (fun x => (0 < h x)%Z) b
  | _ => False
  end.
Lemma zspec_r l v r q : Forall (fun x => (h x < 0)%Z) l -> (h v < 0)%Z -> zspec r q -> zspec (l ++ v :: r) (let '(c, x, i) := q in (c, x, i + (length l + 1))).
Proof.
  intros F HV Z. assert (F' : Forall (fun x => (h x < 0)%Z) (l ++ [v])) by (apply Forall_app; auto).
  destruct q as [[c [x|]] i]; destruct c; cbn in Z |- *; try contradiction; destruct Z as (a & b & -> & LA & Z).
  - destruct Z as (HX & FA). exists (l ++ v :: a), b. split; [rewrite <- app_assoc; reflexivity|]. split; [rewrite app_length; cbn; lia|]. split; auto.
    change (v :: a) with ([v] ++ a). rewrite app_assoc. apply Forall_app. auto.
  - destruct Z as (FA & FB). exists (l ++ v :: a), b. split; [rewrite <- app_assoc; reflexivity|]. split; [rewrite app_length; cbn; lia|]. split; auto.
    change (v :: a) with ([v] ++ a). rewrite app_assoc. apply Forall_app. auto.
Qed.
Lemma sg_neg x y : (Z.sgn (h x) <= Z.sgn (h y))%Z -> (h y < 0)%Z -> (h x < 0)%Z.
Proof. destruct (h x), (h y); cbn; lia. Qed.
Lemma sg_pos x y : (Z.sgn (h x) <= Z.sgn (h y))%Z -> (0 < h x)%Z -> (0 < h y)%Z.
Proof. destruct (h x), (h y); cbn; lia. Qed.
Lemma sg_npos x y : (Z.sgn (h x) <= Z.sgn (h y))%Z -> (h y <= 0)%Z -> (h x <= 0)%Z.
Proof. destruct (h x), (h y); cbn; lia. Qed.
Lemma sg_nneg x y : (Z.sgn (h x) <= Z.sgn (h y))%Z -> (0 <= h x)%Z -> (0 <= h y)%Z.
Proof. destruct (h x), (h y); cbn; lia. Qed.
Lemma find_zero_tree t : wt t -> monotone h (elems t) -> zspec (elems t) (find_internal_zero h t).
Proof.
  induction t as [|l IL v w m b r IR]; intros W M; cbn [find_internal_zero elems].
  - exists [], []. auto.
  - destruct W as (WL & WR & ->). pose proof (wt_len _ WL) as LL. destruct (mono_mid _ _ _ M) as (ML & MR & FL & FR). specialize (IL WL ML). specialize (IR WR MR).
    destruct (h v) as [|p|p] eqn:HV.
    + destruct (find_internal_zero h l) as [[[] [x|]] i]; cbn in IL; try contradiction.
      * destruct IL as (a & b' & E & LA & HX & FA). cbn. exists a, (b' ++ v :: elems r). rewrite E, <- app_assoc. auto.
      * destruct IL as (a & b' & E & LA & FA & FB). cbn. exists (elems l), (elems r). split; auto. split; auto. split; auto.
        apply Forall_forall. intros x IN. assert (S : (h x <= 0)%Z) by (rewrite Forall_forall in FL; apply FL in IN; eapply sg_npos; [rewrite HV; exact IN|lia]).
        rewrite E in IN. apply in_app_iff in IN as [IN|IN]; [rewrite Forall_forall in FA; auto|]. rewrite Forall_forall in FB. apply FB in IN. lia.
    + destruct (find_internal_zero h l) as [[[] [x|]] i]; cbn in IL; try contradiction.
      * destruct IL as (a & b' & E & LA & HX & FA). cbn. exists a, (b' ++ v :: elems r). rewrite E, <- app_assoc. auto.
      * destruct IL as (a & b' & E & LA & FA & FB). cbn. exists a, (b' ++ v :: elems r). rewrite E, <- app_assoc. split; auto. split; auto. split; auto.
        apply Forall_app. split; auto. constructor; [lia|]. eapply Forall_impl; [|exact FR]. intros x S. eapply (sg_pos v); [rewrite HV; exact S|lia].
    + assert (HV' : (h v < 0)%Z) by lia. rewrite <- LL. apply zspec_r; auto. eapply Forall_impl; [|exact FL]. intros x S. eapply sg_neg; [rewrite HV; exact S|lia].
Qed.

Lemma mid_cut (m : list A) lo : m <> [] -> exists x v y, m = x ++ v :: y /\ lo + length x = (lo + (lo + length m)) / 2.
Proof.
  intros NE. destruct (split_at_nth m ((lo + (lo + length m)) / 2 - lo)) as (x & v & y & E & L).
  - destruct m; [congruence|]. cbn [length]. assert ((lo + (lo + S (length m))) / 2 < lo + S (length m)) by (apply Nat.div_lt_upper_bound; lia). lia.
  - exists x, v, y. split; auto. rewrite L. assert (lo <= (lo + (lo + length m)) / 2) by (apply Nat.div_le_lower_bound; lia). lia.
Qed.
Lemma neg_of l v : (h v < 0)%Z -> Forall (fun x => (Z.sgn (h x) <= Z.sgn (h v))%Z) l -> Forall (fun x => (h x < 0)%Z) l.
Proof. intros HV. apply Forall_impl. intros x S. eapply sg_neg; eauto. Qed.
Lemma npos_of l v : (h v <= 0)%Z -> Forall (fun x => (Z.sgn (h x) <= Z.sgn (h v))%Z) l -> Forall (fun x => (h x <= 0)%Z) l.
Proof. intros HV. apply Forall_impl. intros x S. eapply sg_npos; eauto. Qed.
Lemma nneg_of l v : (0 <= h v)%Z -> Forall (fun x => (Z.sgn (h v) <= Z.sgn (h x))%Z) l -> Forall (fun x => (0 <= h x)%Z) l.
Proof. intros HV. apply Forall_impl. intros x S. eapply sg_nneg; eauto. Qed.
Lemma pos_of l v : (0 < h v)%Z -> Forall (fun x => (Z.sgn (h v) <= Z.sgn (h x))%Z) l -> Forall (fun x => (0 < h x)%Z) l.
Proof. intros HV. apply Forall_impl. intros x S. eapply sg_pos; eauto. Qed.

(** state of the loop: [a] is done on the left, [m] is open, [b] is done on the right *)
Lemma zero_loop_ok pre post : forall fuel a m b lo hi pos zero, length pre + length a = lo -> lo + length m = hi -> length m <= fuel ->
  monotone h (a ++ m ++ b) -> Forall (fun x => (h x < 0)%Z) a ->
  ((pos = None /\ zero = None /\ b = []) \/
   (exists v b', b = v :: b' /\ ((h v = 0%Z /\ zero = Some hi) \/ ((0 < h v)%Z /\ pos = Some hi /\ zero = None)))) ->
  exists pos' zero' a' b', zero_loop h fuel (pre ++ (a ++ m ++ b) ++ post) lo hi pos zero = Some (pos', zero') /\ a ++ m ++ b = a' ++ b' /\ Forall (fun x => (h x < 0)%Z) a' /\
   ((pos' = None /\ zero' = None /\ b' = []) \/
    (exists v b'', b' = v :: b'' /\ ((h v = 0%Z /\ zero' = Some (length pre + length a')) \/ ((0 < h v)%Z /\ pos' = Some (length pre + length a') /\ zero' = None)))).
Proof.
  induction fuel as [|fuel IH]; intros a m b lo hi pos zero LA LM LF M FA SB; cbn [zero_loop].
  - destruct m; [|cbn in LF; lia]. cbn in LM. replace hi with lo by lia. rewrite Nat.eqb_refl. exists pos, zero, a, b. split; auto. split; auto. split; auto.
    rewrite LA. replace hi with lo in SB by lia. exact SB.
  - destruct (Nat.eqb_spec lo hi) as [E|NE].
    + destruct m; [|cbn in LM; lia]. exists pos, zero, a, b. split; auto. split; auto. split; auto. rewrite LA, E. exact SB.
    + destruct (mid_cut m lo) as (x & v & y & -> & ME); [intros ->; cbn in LM; lia|]. rewrite LM in ME. rewrite <- ME.
      rewrite app_length in LM, LF. cbn [length] in LM, LF.
      replace (pre ++ (a ++ (x ++ v :: y) ++ b) ++ post) with ((pre ++ a ++ x) ++ v :: y ++ b ++ post) by (rewrite <- !app_assoc; reflexivity).
      rewrite (nth_mid (pre ++ a ++ x)) by (rewrite !app_length; lia).
      assert (M0 : monotone h ((a ++ x) ++ v :: y ++ b)) by (rewrite <- !app_assoc in M |- *; exact M).
      destruct (mono_mid _ _ _ M0) as (MA & MB & FL & FR).
      replace (a ++ (x ++ v :: y) ++ b) with (a ++ x ++ v :: y ++ b) by (rewrite <- !app_assoc; reflexivity).
      destruct (h v) as [|p|p] eqn:HV.
      * destruct (IH a x (v :: y ++ b) lo (lo + length x) pos (Some (lo + length x))) as (pos' & zero' & a' & b' & E' & Q); auto; try lia.
        { rewrite <- !app_assoc in M0. exact M0. }
        { right. exists v, (y ++ b). auto. }
        exists pos', zero', a', b'. split; [|exact Q]. rewrite <- E'. f_equal. repeat (rewrite <- app_assoc; cbn [app]). reflexivity.
      * destruct (IH a x (v :: y ++ b) lo (lo + length x) (Some (lo + length x)) zero) as (pos' & zero' & a' & b' & E' & Q); auto; try lia.
        { rewrite <- !app_assoc in M0. exact M0. }
        { right. exists v, (y ++ b). split; auto. right. split; [lia|]. split; auto.
          destruct SB as [(_ & Z0 & _)|(v0 & b0 & -> & [(H0 & Z0)|(_ & _ & Z0)])]; auto.
          rewrite Forall_forall in FR. specialize (FR v0 ltac:(apply in_app_iff; right; now left)). rewrite H0 in FR. cbn in FR. lia. }
        exists pos', zero', a', b'. split; [|exact Q]. rewrite <- E'. f_equal. repeat (rewrite <- app_assoc; cbn [app]). reflexivity.
      * destruct (IH (a ++ x ++ [v]) y b (lo + length x + 1) hi pos zero) as (pos' & zero' & a' & b' & E' & Q); auto; try (rewrite ?app_length; cbn [length]; lia).
        { repeat (rewrite <- app_assoc; cbn [app]). rewrite <- app_assoc in M0. exact M0. }
        { rewrite app_assoc. apply Forall_app. split; [|constructor; [lia|constructor]]. apply (neg_of _ v); [lia|now rewrite HV]. }
        exists pos', zero', a', b'. repeat (rewrite <- app_assoc in E'; cbn [app] in E'). repeat (rewrite <- app_assoc in Q; cbn [app] in Q). split; [|exact Q]. rewrite <- E'. f_equal. repeat (rewrite <- app_assoc; cbn [app]). reflexivity.
Qed.
Lemma nth_in (pre l post : list A) a v b : l = a ++ v :: b -> nth_error (pre ++ l ++ post) (length pre + length a) = Some v.
Proof. intros ->. rewrite <- app_assoc. cbn [app]. rewrite app_assoc. apply nth_mid. now rewrite app_length. Qed.
Lemma find_zero_ok o ls : V o ls -> monotone h ls -> exists q, find_zero h o = Some q /\ zspec ls q.
Proof.
  intros H M. destruct o as [cap start num vals|cap t free]; cbn [find_zero].
  - destruct H as (_ & pre & post & -> & LP & EN).
    destruct (zero_loop_ok pre post num [] ls [] start (start + num) None None) as (pos & zero & a & b & E & EL & FA & Q); auto; try (cbn; lia).
    { cbn. now rewrite app_nil_r. }
    cbn [app] in E, EL. rewrite app_nil_r in E, EL. rewrite E. destruct Q as [(-> & -> & ->)|(v & b' & -> & [(HV & ->)|(HV & -> & ->)])].
    + eexists. split; [reflexivity|]. cbn. exists ls, []. rewrite app_nil_r in *. subst ls. auto.
    + rewrite (nth_in pre ls post a v b' EL). eexists. split; [reflexivity|]. cbn. exists a, b'. split; auto. split; [lia|]. auto.
    + eexists. split; [reflexivity|]. cbn. exists a, (v :: b'). split; auto. split; [lia|]. split; auto. rewrite EL in M. apply mono_mid in M as (_ & _ & _ & F).
      constructor; auto. now apply (pos_of _ v).
  - destruct H as (W & <-). eexists. split; [reflexivity|]. now apply find_zero_tree.
Qed.

Lemma plus_loop_ok pre post : forall fuel a m b lo hi best, length pre + length a = lo -> lo + length m = hi -> length m <= fuel ->
  monotone h (a ++ m ++ b) -> Forall (fun x => (h x <= 0)%Z) a ->
  ((best = None /\ b = []) \/ (exists v b', b = v :: b' /\ (0 < h v)%Z /\ best = Some hi)) ->
  exists best' a' b', plus_loop h fuel (pre ++ (a ++ m ++ b) ++ post) lo hi best = Some best' /\ a ++ m ++ b = a' ++ b' /\ Forall (fun x => (h x <= 0)%Z) a' /\
   ((best' = None /\ b' = []) \/ (exists v b'', b' = v :: b'' /\ (0 < h v)%Z /\ best' = Some (length pre + length a'))).
Proof.
  induction fuel as [|fuel IH]; intros a m b lo hi best LA LM LF M FA SB; cbn [plus_loop].
  - destruct m; [|cbn in LF; lia]. cbn in LM. replace hi with lo by lia. rewrite Nat.eqb_refl. exists best, a, b. split; auto. split; auto. split; auto.
    rewrite LA. replace hi with lo in SB by lia. exact SB.
  - destruct (Nat.eqb_spec lo hi) as [E|NE].
    + destruct m; [|cbn in LM; lia]. exists best, a, b. split; auto. split; auto. split; auto. rewrite LA, E. exact SB.
    + destruct (mid_cut m lo) as (x & v & y & -> & ME); [intros ->; cbn in LM; lia|]. rewrite LM in ME. rewrite <- ME.
      rewrite app_length in LM, LF. cbn [length] in LM, LF.
      replace (pre ++ (a ++ (x ++ v :: y) ++ b) ++ post) with ((pre ++ a ++ x) ++ v :: y ++ b ++ post) by (rewrite <- !app_assoc; reflexivity).
      rewrite (nth_mid (pre ++ a ++ x)) by (rewrite !app_length; lia).
      assert (M0 : monotone h ((a ++ x) ++ v :: y ++ b)) by (rewrite <- !app_assoc in M |- *; exact M).
      destruct (mono_mid _ _ _ M0) as (MA & MB & FL & FR).
      replace (a ++ (x ++ v :: y) ++ b) with (a ++ x ++ v :: y ++ b) by (rewrite <- !app_assoc; reflexivity).
      destruct (Z.ltb_spec 0 (h v)) as [HV|HV].
      * destruct (IH a x (v :: y ++ b) lo (lo + length x) (Some (lo + length x))) as (best' & a' & b' & E' & Q); auto; try lia.
        { rewrite <- !app_assoc in M0. exact M0. }
        { right. exists v, (y ++ b). auto. }
        exists best', a', b'. split; [|exact Q]. rewrite <- E'. f_equal. repeat (rewrite <- app_assoc; cbn [app]). reflexivity.
      * destruct (IH (a ++ x ++ [v]) y b (lo + length x + 1) hi best) as (best' & a' & b' & E' & Q); auto; try (rewrite ?app_length; cbn [length]; lia).
        { repeat (rewrite <- app_assoc; cbn [app]). rewrite <- app_assoc in M0. exact M0. }
        { rewrite app_assoc. apply Forall_app. split; [|constructor; [lia|constructor]]. apply (npos_of _ v); [lia|auto]. }
        exists best', a', b'. repeat (rewrite <- app_assoc in E'; cbn [app] in E'). repeat (rewrite <- app_assoc in Q; cbn [app] in Q). split; [|exact Q]. rewrite <- E'. f_equal. repeat (rewrite <- app_assoc; cbn [app]). reflexivity.
Qed.
Lemma minus_loop_ok pre post : forall fuel a m b lo hi best, length pre + length a = lo -> lo + length m = hi -> length m <= fuel ->
  monotone h (a ++ m ++ b) -> Forall (fun x => (0 <= h x)%Z) b ->
  ((best = None /\ a = []) \/ (exists v a', a = a' ++ [v] /\ (h v < 0)%Z /\ best = Some (length pre + length a'))) ->
  exists best' a' b', minus_loop h fuel (pre ++ (a ++ m ++ b) ++ post) lo hi best = Some best' /\ a ++ m ++ b = a' ++ b' /\ Forall (fun x => (0 <= h x)%Z) b' /\
   ((best' = None /\ a' = []) \/ (exists v a'', a' = a'' ++ [v] /\ (h v < 0)%Z /\ best' = Some (length pre + length a''))).
Proof.
  induction fuel as [|fuel IH]; intros a m b lo hi best LA LM LF M FB SB; cbn [minus_loop].
  - destruct m; [|cbn in LF; lia]. cbn in LM. replace hi with lo by lia. rewrite Nat.eqb_refl. exists best, a, b. auto.
  - destruct (Nat.eqb_spec lo hi) as [E|NE].
    + destruct m; [|cbn in LM; lia]. exists best, a, b. auto.
    + destruct (mid_cut m lo) as (x & v & y & -> & ME); [intros ->; cbn in LM; lia|]. rewrite LM in ME. rewrite <- ME.
      rewrite app_length in LM, LF. cbn [length] in LM, LF.
      replace (pre ++ (a ++ (x ++ v :: y) ++ b) ++ post) with ((pre ++ a ++ x) ++ v :: y ++ b ++ post) by (rewrite <- !app_assoc; reflexivity).
      rewrite (nth_mid (pre ++ a ++ x)) by (rewrite !app_length; lia).
      assert (M0 : monotone h ((a ++ x) ++ v :: y ++ b)) by (rewrite <- !app_assoc in M |- *; exact M).
      destruct (mono_mid _ _ _ M0) as (MA & MB & FL & FR).
      replace (a ++ (x ++ v :: y) ++ b) with (a ++ x ++ v :: y ++ b) by (rewrite <- !app_assoc; reflexivity).
      destruct (Z.ltb_spec (h v) 0) as [HV|HV].
      * destruct (IH (a ++ x ++ [v]) y b (lo + length x + 1) hi (Some (lo + length x))) as (best' & a' & b' & E' & Q); auto; try (rewrite ?app_length; cbn [length]; lia).
        { repeat (rewrite <- app_assoc; cbn [app]). rewrite <- app_assoc in M0. exact M0. }
        { right. exists v, (a ++ x). rewrite <- app_assoc, app_length. split; auto. split; auto. f_equal. lia. }
        exists best', a', b'. repeat (rewrite <- app_assoc in E'; cbn [app] in E'). repeat (rewrite <- app_assoc in Q; cbn [app] in Q). split; [|exact Q]. rewrite <- E'. f_equal. repeat (rewrite <- app_assoc; cbn [app]). reflexivity.
      * destruct (IH a x (v :: y ++ b) lo (lo + length x) best) as (best' & a' & b' & E' & Q); auto; try lia.
        { rewrite <- !app_assoc in M0. exact M0. }
        { constructor; [lia|]. now apply (nneg_of _ v). }
        exists best', a', b'. split; [|exact Q]. rewrite <- E'. f_equal. repeat (rewrite <- app_assoc; cbn [app]). reflexivity.
Qed.

Definition pspec (l : list A) (q : option (A * nat)) : Prop :=
  match q with Some (v, i) => leftmost (fun x => (0 < h x)%Z) l v i | None => Forall (fun x => ~ (0 < h x)%Z) l end.
Definition mspec (l : list A) (q : option (A * nat)) : Prop :=
  match q with Some (v, i) => rightmost (fun x => (h x < 0)%Z) l v i | None => Forall (fun x => ~ (h x < 0)%Z) l end.
Lemma find_plus_tree t : wt t -> monotone h (elems t) -> pspec (elems t) (find_internal_plus h t).
Proof.
  induction t as [|l IL v w m b r IR]; intros W M; cbn [find_internal_plus elems]; [constructor|].
  destruct W as (WL & WR & ->). pose proof (wt_len _ WL) as LL. destruct (mono_mid _ _ _ M) as (ML & MR & FL & FR). specialize (IL WL ML). specialize (IR WR MR).
  destruct (Z.ltb_spec 0 (h v)) as [HV|HV].
  - destruct (find_internal_plus h l) as [[x i]|].
    + destruct IL as (a & b' & E & LA & HX & FA). exists a, (b' ++ v :: elems r). rewrite E, <- app_assoc. auto.
    + exists (elems l), (elems r). auto.
  - assert (FN : Forall (fun x => ~ (0 < h x)%Z) (elems l ++ [v])).
    { apply Forall_app. split; [|constructor; [lia|constructor]]. eapply Forall_impl; [|apply (npos_of _ v); eauto]. cbn. intros. lia. }
    destruct (find_internal_plus h r) as [[x i]|].
    + destruct IR as (a & b' & E & LA & HX & FA). exists (elems l ++ v :: a), b'. rewrite E, <- app_assoc. split; auto. split; [rewrite app_length; cbn; lia|]. split; auto.
      change (v :: a) with ([v] ++ a). rewrite app_assoc. apply Forall_app. auto.
    + cbn in IR |- *. change (v :: elems r) with ([v] ++ elems r). rewrite app_assoc. apply Forall_app. auto.
Qed.
Lemma find_minus_tree t : wt t -> monotone h (elems t) -> mspec (elems t) (find_internal_minus h t).
Proof.
  induction t as [|l IL v w m b r IR]; intros W M; cbn [find_internal_minus elems]; [constructor|].
  destruct W as (WL & WR & ->). pose proof (wt_len _ WL) as LL. destruct (mono_mid _ _ _ M) as (ML & MR & FL & FR). specialize (IL WL ML). specialize (IR WR MR).
  destruct (Z.ltb_spec (h v) 0) as [HV|HV].
  - destruct (find_internal_minus h r) as [[x i]|].
    + destruct IR as (a & b' & E & LA & HX & FB). exists (elems l ++ v :: a), b'. rewrite E, <- app_assoc. split; auto. split; [rewrite app_length; cbn; lia|]. auto.
    + exists (elems l), (elems r). auto.
  - assert (FN : Forall (fun x => ~ (h x < 0)%Z) (v :: elems r)).
    { constructor; [lia|]. eapply Forall_impl; [|apply (nneg_of _ v); eauto]. cbn. intros. lia. }
    destruct (find_internal_minus h l) as [[x i]|].
    + destruct IL as (a & b' & E & LA & HX & FB). exists a, (b' ++ v :: elems r). rewrite E, <- app_assoc. split; auto. split; auto. split; auto. apply Forall_app. auto.
    + cbn in IL |- *. apply Forall_app. auto.
Qed.
Lemma find_ok o ls d : V o ls -> monotone h ls -> d <> 0%Z -> exists q, find h o d = Some q /\ if (d <? 0)%Z then mspec ls q else pspec ls q.
Proof.
  intros H M ND. unfold find. destruct (Z.eqb_spec d 0); [congruence|]. cbn [negb]. destruct o as [cap start num vals|cap t free].
  - destruct H as (_ & pre & post & -> & LP & EN). destruct (Z.ltb_spec d 0).
    + destruct (minus_loop_ok pre post num [] ls [] start (start + num) None) as (best & a & b & E & EL & FB & Q); auto; try (cbn; lia).
      { cbn. now rewrite app_nil_r. }
      cbn [app] in E, EL. rewrite app_nil_r in E, EL. rewrite E. destruct Q as [(-> & ->)|(v & a' & -> & HV & ->)].
      * eexists. split; [reflexivity|]. cbn in *. subst b. eapply Forall_impl; [|exact FB]. cbn. intros. lia.
      * rewrite <- app_assoc in EL. cbn [app] in EL. rewrite (nth_in pre ls post a' v b EL). eexists. split; [reflexivity|]. exists a', b. split; auto. split; [lia|]. split; auto.
        eapply Forall_impl; [|exact FB]. cbn. intros. lia.
    + destruct (plus_loop_ok pre post num [] ls [] start (start + num) None) as (best & a & b & E & EL & FA & Q); auto; try (cbn; lia).
      { cbn. now rewrite app_nil_r. }
      cbn [app] in E, EL. rewrite app_nil_r in E, EL. rewrite E. destruct Q as [(-> & ->)|(v & b' & -> & HV & ->)].
      * eexists. split; [reflexivity|]. rewrite app_nil_r in EL. subst a. cbn. eapply Forall_impl; [|exact FA]. cbn. intros. lia.
      * rewrite (nth_in pre ls post a v b' EL). eexists. split; [reflexivity|]. exists a, b'. split; auto. split; [lia|]. split; auto.
        eapply Forall_impl; [|exact FA]. cbn. intros. lia.
  - destruct H as (W & <-). eexists. split; [reflexivity|]. destruct (d <? 0)%Z; [now apply find_minus_tree|now apply find_plus_tree].
Qed.
End Find.
