(** Pivot keys: both formats represent a list of byte strings. *)
From Verif Require Import Base Bytes WbufModel WbufProofs PkModel.
Open Scope nat_scope.

(** ** Memory *)
Lemma slice_app {A} (a x b : list A) : slice (a ++ x ++ b) (length a) (length x) = Some x.
Proof.
  unfold slice. rewrite !app_length. destruct (Nat.leb_spec (length a + length x) (length a + (length x + length b))); [|lia].
  now rewrite skipn_app_exact, firstn_app_exact.
Qed.
Lemma slice_at {A} (a x b : list A) i n : i = length a -> n = length x -> slice (a ++ x ++ b) i n = Some x.
Proof. intros -> ->. apply slice_app. Qed.
Lemma blit_app {A} (a x y b : list A) : length x = length y -> blit (a ++ x ++ b) (length a) y = Some (a ++ y ++ b).
Proof.
  intros E. unfold blit. rewrite !app_length, <- E. destruct (Nat.leb_spec (length a + length x) (length a + (length x + length b))); [|lia].
  rewrite firstn_app_exact. do 3 f_equal. rewrite app_assoc, <- app_length. apply skipn_app_exact.
Qed.
Lemma blit_at {A} (a x y b : list A) i : i = length a -> length x = length y -> blit (a ++ x ++ b) i y = Some (a ++ y ++ b).
Proof. intros ->. apply blit_app. Qed.
Lemma resize_app {A} (junk : nat -> A) a r n : length a <= n -> exists z, resize junk (a ++ r) n = a ++ z /\ length z = n - length a.
Proof.
  intros L. unfold resize. rewrite <- app_assoc, firstn_app, (firstn_all2 a) by auto.
  eexists. split; [reflexivity|]. rewrite firstn_length, app_length, map_length, seq_length. lia.
Qed.
Lemma resize_all {A} (junk : nat -> A) a r : resize junk (a ++ r) (length a) = a.
Proof. destruct (resize_app junk a r (length a)) as (z & E & L); auto. rewrite E. destruct z; [apply app_nil_r|cbn in L; lia]. Qed.
Lemma resize_length {A} (junk : nat -> A) a n : length (resize junk a n) = n.
Proof. unfold resize. rewrite firstn_length, app_length, map_length, seq_length. lia. Qed.
Lemma split_len {A} (l : list A) n : n <= length l -> exists a b, l = a ++ b /\ length a = n.
Proof. intros L. exists (firstn n l), (skipn n l). rewrite firstn_skipn, firstn_length. split; auto. lia. Qed.

Lemma align4_ge n : n <= align4 n.
Proof. unfold align4. pose proof (Nat.div_mod (n + 3) 4 ltac:(lia)). pose proof (Nat.mod_upper_bound (n + 3) 4 ltac:(lia)). lia. Qed.
Lemma align4_lt n : align4 n < n + 4.
Proof. unfold align4. pose proof (Nat.div_mod (n + 3) 4 ltac:(lia)). lia. Qed.

(** ** Slots *)
Definition slot (al fl : nat) (s k : bytes) : Prop := length s = al /\ length k = fl /\ exists pad, s = k ++ pad.
Definition slots (al fl : nat) : list bytes -> list bytes -> Prop := Forall2 (slot al fl).
Lemma slots_len al fl ss ks : slots al fl ss ks -> length (concat ss) = al * length ks.
Proof. induction 1 as [|s k ss ks (L & _) _ IH]; cbn [concat length]; [lia|]. rewrite app_length, L, IH. lia. Qed.
Lemma slots_length al fl ss ks : slots al fl ss ks -> length ss = length ks.
Proof. induction 1; cbn; auto. Qed.
Lemma slots_split al fl ss a b : slots al fl ss (a ++ b) -> exists sa sb, ss = sa ++ sb /\ slots al fl sa a /\ slots al fl sb b.
Proof. intros H. apply Forall2_app_inv_r in H as (x & y & A & B & ->). exists x, y. auto. Qed.
Lemma slots_app al fl sa sb a b : slots al fl sa a -> slots al fl sb b -> slots al fl (sa ++ sb) (a ++ b).
Proof. apply Forall2_app. Qed.
Lemma slots_sizes al fl ss ks : slots al fl ss ks -> Forall (fun k => length k = fl) ks.
Proof. induction 1 as [|s k ss ks (_ & L & _) _ IH]; constructor; auto. Qed.
Lemma slot_read al fl a s k b i : slot al fl s k -> i = length a -> slice (a ++ s ++ b) i fl = Some k.
Proof. intros (L & LK & pad & ->) ->. rewrite <- app_assoc. apply slice_at; auto. Qed.
Lemma fixed_keys_ok al fl a ss ks rest i : slots al fl ss ks -> length a = al * i ->
  fixed_keys (a ++ concat ss ++ rest) al fl i (length ks) = Some ks.
Proof.
  intros S. revert a i. induction S as [|s k ss ks SK S IH]; intros a i L; cbn [fixed_keys length concat]; [reflexivity|].
  unfold fixed_key. rewrite <- app_assoc. rewrite (slot_read al fl a s k) by (auto; lia).
  rewrite app_assoc, IH; [reflexivity|]. rewrite app_length. destruct SK as (-> & _). lia.
Qed.
Lemma fixed_key_ok al fl ss ks rest i k : slots al fl ss ks -> nth_error ks i = Some k ->
  fixed_key (concat ss ++ rest) al fl i = Some k.
Proof.
  intros S N. apply nth_error_split in N as (a & b & -> & L). apply slots_split in S as (sa & sb & -> & SA & SB).
  inversion SB as [|s k' sb' b' SK SB']; subst. rewrite concat_app. cbn [concat]. rewrite <- !app_assoc.
  unfold fixed_key. eapply slot_read; eauto. rewrite (slots_len _ _ _ _ SA). lia.
Qed.
Lemma fill_fixed_ok al fl done ks z : fl <= al -> Forall (fun s => length s = al) done -> Forall (fun k => length k = fl) ks ->
  al * length ks <= length z ->
  exists ss z', fill_fixed (concat done ++ z) al fl (length done) ks = Some (concat (done ++ ss) ++ z') /\ slots al fl ss ks /\
                length z' = length z - al * length ks.
Proof.
  intros LE D F. revert done z D. induction F as [|k ks K F IH]; intros done z D L; cbn [fill_fixed length] in *.
  { exists [], z. rewrite app_nil_r. split; [reflexivity|]. split; [constructor|lia]. }
  rewrite K, Nat.eqb_refl.
  destruct (split_len z al) as (y & z' & -> & LY); [lia|]. destruct (split_len y fl) as (y1 & y2 & -> & LY1); [lia|].
  assert (CD : length (concat done) = length done * al).
  { clear - D. induction D as [|s l E _ IH]; cbn; auto. rewrite app_length, E, IH. reflexivity. }
  rewrite <- (app_assoc y1). rewrite (blit_at (concat done) y1 k) by lia.
  replace (concat done ++ k ++ y2 ++ z') with (concat (done ++ [k ++ y2]) ++ z').
  2:{ rewrite concat_app. cbn [concat]. now rewrite app_nil_r, <- !app_assoc. }
  rewrite app_length in LY. rewrite !app_length in L.
  destruct (IH (done ++ [k ++ y2]) z') as (ss & z2 & E & S & LZ).
  { apply Forall_app. split; auto. constructor; [|constructor]. rewrite app_length. lia. }
  { lia. }
  rewrite app_length in E. cbn [length] in E. rewrite Nat.add_1_r in E. rewrite E. exists ((k ++ y2) :: ss), z2. rewrite <- app_assoc. split; [reflexivity|].
  split; [|rewrite !app_length; lia]. constructor; auto. split; [rewrite app_length; lia|]. split; auto. now exists y2.
Qed.

Lemma same_size_ok ks k0 r : ks = k0 :: r -> same_size ks = true -> Forall (fun k => length k = length k0) ks.
Proof.
  revert k0 r. induction ks as [|k ks IH]; intros k0 r E S; [discriminate|]. injection E as -> ->.
  constructor; auto. destruct r as [|k1 r']; [constructor|]. cbn [same_size] in S. apply andb_true_iff in S as (S1 & S2).
  apply Nat.eqb_eq in S1. rewrite <- S1. eapply IH; eauto.
Qed.
Lemma sum_app a b : sum_sizes (a ++ b) = sum_sizes a + sum_sizes b.
Proof. induction a; cbn; auto. fold (sum_sizes (a0 ++ b)). fold (sum_sizes a0). lia. Qed.
Lemma sum_cons k b : sum_sizes (k :: b) = length k + sum_sizes b.
Proof. reflexivity. Qed.
Lemma sum_fixed fl ks : Forall (fun k => length k = fl) ks -> sum_sizes ks = length ks * fl.
Proof. induction 1 as [|k ks E _ IH]; [reflexivity|]. rewrite sum_cons, E, IH. cbn. lia. Qed.
Definition keys_ok (ks : list bytes) : Prop := Forall (fun k => 0 < length k) ks.
Lemma sum_pos ks : keys_ok ks -> ks <> [] -> 0 < sum_sizes ks.
Proof. intros F NE. destruct F; [congruence|]. rewrite sum_cons. lia. Qed.

(** ** The representation *)
Record Fix (p : pk) (ks : list bytes) (mem : bytes) : Prop := {
  f_num : p_num p = length ks;
  f_mem : p_fixed p = Some mem;
  f_dbt : p_dbt p = None;
  f_pos : 0 < p_len p;
  f_al : p_align p = align4 (p_len p);
  f_tot : p_total p = p_align p * length ks;
  f_slots : exists ss rest, mem = concat ss ++ rest /\ slots (p_align p) (p_len p) ss ks }.
Record Dbt (p : pk) (ks : list bytes) : Prop := {
  d_num : p_num p = length ks;
  d_fix : p_fixed p = None;
  d_dbt : p_dbt p = Some ks \/ p_dbt p = None /\ ks = [];
  d_tot : p_total p = sum_sizes ks }.
Definition Rep (p : pk) (ks : list bytes) : Prop := keys_ok ks /\ (Dbt p ks \/ exists mem, Fix p ks mem).

Lemma fix_is p ks mem : Fix p ks mem -> is_fixed p = true.
Proof. intros []. unfold is_fixed. now rewrite f_mem0. Qed.
Lemma dbt_is p ks : Dbt p ks -> is_fixed p = false.
Proof. intros []. unfold is_fixed. now rewrite d_fix0. Qed.
Lemma dbt_arr p ks : Dbt p ks -> match p_dbt p with Some a => a | None => [] end = ks.
Proof. intros [_ _ [E|(E & ->)] _]; rewrite E; reflexivity. Qed.
Lemma slice_all {A} (l : list A) : slice l 0 (length l) = Some l.
Proof. unfold slice. rewrite Nat.add_0_l, Nat.leb_refl. cbn [skipn]. now rewrite firstn_all. Qed.
Lemma fix_sanity p ks mem : Fix p ks mem -> sanity_check p = Some p.
Proof.
  intros F. unfold sanity_check. rewrite (fix_is _ _ _ F). destruct F. rewrite f_dbt0, f_al0, Nat.eqb_refl, f_num0, f_tot0, f_al0.
  pose proof (align4_ge (p_len p)). rewrite (Nat.mul_comm _ (length ks)), Nat.eqb_refl.
  destruct (Nat.leb_spec (length ks * p_len p) (length ks * align4 (p_len p))); [reflexivity|nia].
Qed.
Lemma dbt_sanity p ks : Dbt p ks -> sanity_check p = Some p.
Proof.
  intros D. unfold sanity_check. rewrite (dbt_is _ _ D), (dbt_arr _ _ D). destruct D.
  rewrite d_num0, slice_all, d_tot0, Nat.eqb_refl. destruct d_dbt0 as [E|(E & ->)]; rewrite E; [rewrite orb_true_r|]; reflexivity.
Qed.
Lemma rep_sanity p ks : Rep p ks -> sanity_check p = Some p.
Proof. intros (_ & [D|(m & F)]); [eapply dbt_sanity|eapply fix_sanity]; eauto. Qed.

Section Ops.
Context (null0 : bool) (junkb : nat -> N) (junkd : nat -> bytes).

Lemma ptr_ne {A} (l : list A) : l <> [] -> ptr null0 l = Some l.
Proof. clear junkb junkd. intros H. unfold ptr. destruct l; [congruence|]. now rewrite andb_false_r. Qed.
Lemma ptr_any {A} (l : list A) : ptr null0 l = Some l \/ ptr null0 l = None /\ l = [].
Proof. clear junkb junkd. unfold ptr. destruct null0, l; cbn; auto. Qed.
Lemma empty_rep : Rep pk_empty [].
Proof. clear null0 junkb junkd. split; [constructor|]. left. constructor; auto. Qed.

Lemma from_dbts_ok ks : keys_ok ks -> exists p, create_from_dbts null0 junkb ks = Some p /\ Rep p ks.
Proof. clear junkd. 
  intros K. unfold create_from_dbts. destruct (same_size ks && (0 <? length ks)) eqn:C.
  - apply andb_true_iff in C as (C1 & C2). destruct ks as [|k0 r]; [discriminate|]. cbv zeta.
    pose proof (same_size_ok _ _ _ eq_refl C1) as F. set (ks := k0 :: r) in *. set (fl := length k0) in *.
    assert (P : 0 < fl) by (inversion K; auto). pose proof (align4_ge fl) as LE.
    destruct (fill_fixed_ok (align4 fl) fl [] ks (resize junkb [] (align4 fl * length ks)) LE ltac:(constructor) F) as (ss & z & E & S & LZ).
    { rewrite resize_length. lia. }
    cbn [concat app length] in E. rewrite E. pose proof (slots_len _ _ _ _ S) as LS.
    set (p := mkPk _ _ _ _ _ _).
    assert (X : Fix p ks (concat ss ++ z)).
    { constructor; cbn; auto.
      - apply ptr_ne. intros X. apply (f_equal (@length _)) in X. rewrite app_length, LS in X. unfold ks in X. cbn [length] in X. nia.
      - exists ss, z. auto. }
    exists p. rewrite (fix_sanity _ _ _ X). split; auto. split; auto. right. eauto.
  - set (p := mkPk _ _ _ _ _ _).
    assert (X : Dbt p ks).
    { constructor; cbn; auto. destruct (ptr_any ks) as [E|(E & E2)]; rewrite E; auto. }
    exists p. rewrite (dbt_sanity _ _ X). split; auto. split; auto.
Qed.

Lemma convert_to_dbt_ok p ks mem : keys_ok ks -> Fix p ks mem -> exists q, convert_to_dbt null0 p = Some q /\ Dbt q ks.
Proof. clear junkb junkd. 
  intros K []. destruct f_slots0 as (ss & rest & -> & S). unfold convert_to_dbt. rewrite f_mem0.
  pose proof (fixed_keys_ok (p_align p) (p_len p) [] ss ks rest 0 S ltac:(cbn; lia)) as E. cbn [app] in E. rewrite f_num0, E.
  set (q := mkPk _ _ _ _ _ _).
  assert (X : Dbt q ks).
  { constructor; cbn; auto.
    - destruct (ptr_any ks) as [E1|(E1 & E2)]; rewrite E1; auto.
    - rewrite (sum_fixed (p_len p) ks); auto. eapply slots_sizes; eauto. }
  exists q. rewrite (dbt_sanity _ _ X). auto.
Qed.
Lemma convert_to_fixed_ok p ks : keys_ok ks -> Dbt p ks -> ks <> [] -> same_size ks = true ->
  exists q mem, convert_to_fixed null0 junkb p = Some q /\ Fix q ks mem.
Proof. clear junkd. 
  intros K D NE SZ. unfold convert_to_fixed. rewrite (dbt_is _ _ D). cbn [negb]. destruct D.
  destruct d_dbt0 as [E0|(_ & E0)]; [|congruence]. rewrite E0. destruct ks as [|k0 r]; [congruence|]. cbn [nth_error]. cbv zeta.
  pose proof (same_size_ok _ _ _ eq_refl SZ) as F. set (ks := k0 :: r) in *. set (fl := length k0) in *.
  rewrite d_num0, slice_all.
  assert (P : 0 < fl) by (inversion K; auto). pose proof (align4_ge fl) as LE.
  destruct (fill_fixed_ok (align4 fl) fl [] ks (resize junkb [] (align4 fl * length ks)) LE ltac:(constructor) F) as (ss & z & E & S & LZ).
  { rewrite resize_length. lia. }
  cbn [concat app length] in E. rewrite E. pose proof (slots_len _ _ _ _ S) as LS.
  set (q := mkPk _ _ _ _ _ _).
  assert (X : Fix q ks (concat ss ++ z)).
  { constructor; cbn; auto.
    - apply ptr_ne. intros X. apply (f_equal (@length _)) in X. rewrite app_length, LS in X. unfold ks in X. cbn [length] in X. nia.
    - exists ss, z. auto. }
  exists q, (concat ss ++ z). rewrite (fix_is _ _ _ X), (fix_sanity _ _ _ X). auto.
Qed.

Lemma get_pivot_ok p ks i k : Rep p ks -> nth_error ks i = Some k -> get_pivot p i = Some k.
Proof. clear null0 junkb junkd. 
  intros (_ & [D|(m & F)]) N; unfold get_pivot.
  - destruct D. rewrite d_fix0. destruct d_dbt0 as [->|(_ & ->)]; [auto|destruct i; discriminate].
  - destruct F. rewrite f_mem0. destruct f_slots0 as (ss & rest & -> & S). eapply fixed_key_ok; eauto.
Qed.

Lemma insert_dbt_ok p ks k i : Dbt p ks -> i <= length ks ->
  exists q, insert_dbt null0 junkd p k i = Some q /\ Dbt (bump q (p_num q + 1)) (firstn i ks ++ k :: skipn i ks).
Proof. clear junkb. 
  intros D L. destruct (split_len ks i L) as (a & b & -> & LA). subst i.
  rewrite firstn_app_exact, skipn_app_exact. unfold insert_dbt, realloc. rewrite (dbt_arr _ _ D).
  destruct D. rewrite d_num0. rewrite app_length in *.
  rewrite <- (app_nil_r (a ++ b)). destruct (resize_app junkd (a ++ b) [] (length a + length b + 1)) as (z & -> & LZ); [rewrite app_length; lia|].
  rewrite app_length in LZ. destruct z as [|x [|]]; cbn in LZ; try lia.
  rewrite ptr_ne by (destruct a, b; discriminate).
  unfold memmove. rewrite <- app_assoc. rewrite (slice_at a b [x]) by lia.
  assert (Y : exists y b', b ++ [x] = y :: b' /\ length b' = length b).
  { destruct b as [|y b']; [exists x, []; auto|]. exists y, (b' ++ [x]). split; auto. rewrite app_length. cbn. lia. }
  destruct Y as (y & b' & EB & LB). rewrite EB.
  replace (a ++ y :: b') with ((a ++ [y]) ++ b' ++ []) by (now rewrite app_nil_r, <- app_assoc).
  rewrite (blit_at (a ++ [y]) b' b []) by (rewrite ?app_length; cbn; lia). unfold add_key_dbt.
  replace ((a ++ [y]) ++ b ++ []) with (a ++ [y] ++ b) by (now rewrite app_nil_r, <- app_assoc).
  rewrite (blit_at a [y] [k] b) by auto. eexists. split; [reflexivity|]. unfold bump. cbn [p_fixed p_len p_align p_dbt p_num p_total].
  constructor; cbn; auto.
  - rewrite !app_length. cbn. lia.
  - rewrite d_tot0, !sum_app, sum_cons. lia.
Qed.
Lemma insert_fixed_ok p ks k i mem : Fix p ks mem -> i <= length ks -> length k = p_len p ->
  exists q mem', insert_fixed null0 junkb p k i = Some q /\ Fix (bump q (p_num q + 1)) (firstn i ks ++ k :: skipn i ks) mem'.
Proof. clear junkd. 
  intros F L LK. destruct (split_len ks i L) as (a & b & -> & LA). subst i.
  rewrite firstn_app_exact, skipn_app_exact. destruct F. destruct f_slots0 as (ss & rest & -> & S).
  apply slots_split in S as (sa & sb & -> & SA & SB).
  pose proof (slots_len _ _ _ _ SA) as LSA. pose proof (slots_len _ _ _ _ SB) as LSB.
  pose proof (align4_ge (p_len p)) as AG. rewrite <- f_al0 in AG.
  unfold insert_fixed, realloc. rewrite f_mem0, f_num0. rewrite app_length in *.
  rewrite concat_app.
  destruct (resize_app junkb (concat sa ++ concat sb) rest ((length a + length b + 1) * p_align p)) as (z & -> & LZ); [rewrite app_length; lia|].
  rewrite app_length in LZ.
  rewrite ptr_ne by (intros X; apply (f_equal (@length _)) in X; rewrite !app_length in X; cbn [length] in X; nia).
  unfold memmove. rewrite <- app_assoc. rewrite (slice_at (concat sa) (concat sb) z) by nia.
  destruct (split_len (concat sb ++ z) (p_align p)) as (y & b' & EB & LY); [rewrite app_length; lia|].
  assert (LB : length b' = length (concat sb)).
  { apply (f_equal (@length _)) in EB. rewrite !app_length in EB. lia. }
  rewrite EB. replace (concat sa ++ y ++ b') with ((concat sa ++ y) ++ b' ++ []) by (now rewrite app_nil_r, <- app_assoc).
  rewrite (blit_at (concat sa ++ y) b' (concat sb) []) by (rewrite ?app_length; lia).
  rewrite <- LK, slice_all.
  destruct (split_len y (length k)) as (y1 & y2 & -> & LY1); [lia|]. rewrite app_length in LY.
  replace ((concat sa ++ y1 ++ y2) ++ concat sb ++ []) with (concat sa ++ y1 ++ y2 ++ concat sb) by (now rewrite app_nil_r, <- !app_assoc).
  rewrite (blit_at (concat sa) y1 k) by lia.
  eexists _, _. split; [reflexivity|]. constructor; unfold bump; cbn [p_fixed p_len p_align p_dbt p_num p_total]; auto.
  - rewrite !app_length. cbn. lia.
  - lia.
  - rewrite LK. exact f_al0.
  - rewrite f_tot0, !app_length. cbn. lia.
  - exists (sa ++ (k ++ y2) :: sb), []. split.
    + rewrite concat_app. cbn [concat]. now rewrite app_nil_r, <- !app_assoc.
    + rewrite LK. apply slots_app; auto. constructor; auto. split; [rewrite app_length; lia|]. split; auto. now exists y2.
Qed.
Lemma keys_insert ks k i : keys_ok ks -> 0 < length k -> keys_ok (firstn i ks ++ k :: skipn i ks).
Proof. clear null0 junkb junkd. 
  unfold keys_ok. intros K L. apply Forall_app. split; [|constructor; auto].
  - rewrite <- (firstn_skipn i ks) in K. apply Forall_app in K. tauto.
  - rewrite <- (firstn_skipn i ks) in K. apply Forall_app in K. tauto.
Qed.
Lemma bump_total q n : p_total (bump q n) = p_total q.
Proof. clear null0 junkb junkd. reflexivity. Qed.
Lemma rep_total_pos p ks : Rep p ks -> ks <> [] -> 0 < p_total p.
Proof. clear null0 junkb junkd. 
  intros (K & [D|(m & F)]) NE.
  - rewrite (d_tot _ _ D). now apply sum_pos.
  - rewrite (f_tot _ _ _ F), (f_al _ _ _ F). pose proof (f_pos _ _ _ F). pose proof (align4_ge (p_len p)).
    destruct ks; [congruence|]. cbn [length]. nia.
Qed.
Lemma insert_at_ok p ks k i : Rep p ks -> i <= length ks -> 0 < length k ->
  exists q, insert_at null0 junkb junkd p k i = Some q /\ Rep q (firstn i ks ++ k :: skipn i ks).
Proof.
  intros (K & R) L LK. unfold insert_at. pose proof (keys_insert ks k i K LK) as K'.
  assert (N : p_num p = length ks) by (destruct R as [[]|(m & [])]; auto). rewrite N.
  destruct (Nat.leb_spec i (length ks)); [|lia].
  assert (NE : firstn i ks ++ k :: skipn i ks <> []) by (destruct (firstn i ks); discriminate).
  assert (C : exists p1, (if is_fixed p && negb (length k =? p_len p) then convert_to_dbt null0 p else Some p) = Some p1 /\
     (Dbt p1 ks \/ exists mem, Fix p1 ks mem /\ length k = p_len p1)).
  { destruct R as [D|(m & F)].
    - rewrite (dbt_is _ _ D). cbn [andb]. eauto.
    - rewrite (fix_is _ _ _ F). destruct (Nat.eqb_spec (length k) (p_len p)); cbn [andb negb]; [eauto 6|].
      destruct (convert_to_dbt_ok p ks m K F) as (q & -> & D). eauto. }
  destruct C as (p1 & -> & [D|(m & F & E)]).
  - rewrite (dbt_is _ _ D). destruct (insert_dbt_ok p1 ks k i D L) as (q & -> & D').
    assert (RP : Rep (bump q (p_num q + 1)) (firstn i ks ++ k :: skipn i ks)) by (split; auto).
    pose proof (rep_total_pos _ _ RP NE) as TP. rewrite bump_total in TP. destruct (Nat.ltb_spec 0 (p_total q)); [|lia]. eauto.
  - rewrite (fix_is _ _ _ F). destruct (insert_fixed_ok p1 ks k i m F L E) as (q & m' & -> & F').
    assert (RP : Rep (bump q (p_num q + 1)) (firstn i ks ++ k :: skipn i ks)) by (split; eauto).
    pose proof (rep_total_pos _ _ RP NE) as TP. rewrite bump_total in TP. destruct (Nat.ltb_spec 0 (p_total q)); [|lia]. eauto.
Qed.

Lemma other_keys_ok q ks : Rep q ks -> other_keys q = Some ks.
Proof. clear null0 junkb junkd. 
  intros (_ & [D|(m & F)]); unfold other_keys.
  - rewrite (dbt_arr _ _ D). destruct D. rewrite d_fix0, d_num0. apply slice_all.
  - destruct F. rewrite f_mem0, f_num0. destruct f_slots0 as (ss & rest & -> & S).
    apply (fixed_keys_ok (p_align q) (p_len q) [] ss ks rest 0 S). cbn. lia.
Qed.
Lemma add_keys_ok ks a z t : length z = length ks ->
  add_keys (a ++ z) t (length a) ks = Some (a ++ ks, t + sum_sizes ks).
Proof. clear null0 junkb junkd. 
  revert a z t. induction ks as [|k ks IH]; intros a z t L; cbn [add_keys].
  { destruct z; [|discriminate]. cbn. now rewrite Nat.add_0_r. }
  destruct z as [|y z]; [discriminate|]. change (y :: z) with ([y] ++ z). rewrite (blit_at a [y] [k] z) by auto.
  replace (a ++ [k] ++ z) with ((a ++ [k]) ++ z) by (now rewrite <- app_assoc).
  specialize (IH (a ++ [k]) z (t + length k)). rewrite app_length in IH. cbn [length] in IH. rewrite Nat.add_1_r in IH.
  rewrite IH by (cbn in L; lia). rewrite <- app_assoc. cbn [app]. now rewrite sum_cons, Nat.add_assoc.
Qed.
Lemma append_dbt_ok p ks q ls : Dbt p ks -> Rep q ls ->
  exists r, append_dbt null0 junkd p q = Some r /\ Dbt (bump r (p_num r + p_num q)) (ks ++ ls).
Proof. clear junkb. 
  intros D R. unfold append_dbt. rewrite (other_keys_ok _ _ R).
  assert (NQ : p_num q = length ls) by (destruct R as (_ & [[]|(m & [])]); auto).
  unfold realloc. rewrite (dbt_arr _ _ D). destruct D. rewrite d_num0, NQ.
  destruct (resize_app junkd ks [] (length ks + length ls)) as (z & E & LZ); [lia|]. rewrite app_nil_r in E. rewrite E.
  assert (AK : add_keys (ks ++ z) (p_total p) (length ks) ls = Some (ks ++ ls, p_total p + sum_sizes ls)) by (apply add_keys_ok; lia).
  destruct (ptr_any (ks ++ z)) as [->|(-> & EN)].
  - rewrite AK. eexists. split; [reflexivity|]. constructor; unfold bump; cbn; auto.
    + rewrite app_length. lia.
    + rewrite sum_app. lia.
  - apply app_eq_nil in EN as (-> & ->). cbn [app length] in *. destruct ls; [|cbn in LZ; lia]. cbn [add_keys].
    eexists. split; [reflexivity|]. constructor; unfold bump; cbn; auto.
Qed.
Lemma append_ok p ks q ls : Rep p ks -> Rep q ls ->
  exists r, append null0 junkb junkd p q = Some r /\ Rep r (ks ++ ls).
Proof.
  intros (K & R) RQ. pose proof RQ as (KQ & RQ'). assert (KK : keys_ok (ks ++ ls)) by (apply Forall_app; auto).
  unfold append.
  assert (NQ : p_num q = length ls) by (destruct RQ' as [[]|(m & [])]; auto).
  assert (AD : forall p1, Dbt p1 ks -> exists r, append_dbt null0 junkd p1 q = Some r /\ Rep (bump r (p_num r + p_num q)) (ks ++ ls)).
  { intros p1 D1. destruct (append_dbt_ok p1 ks q ls D1 RQ) as (r & E & D'). exists r. split; auto. split; auto. }
  enough (HH : exists r, (if is_fixed p then append_fixed null0 junkb junkd p q else append_dbt null0 junkd p q) = Some r /\ Rep (bump r (p_num r + p_num q)) (ks ++ ls)).
  { destruct HH as (r & -> & RP). rewrite (rep_sanity _ _ RP). eauto. }
  destruct R as [D|(m & F)].
  { rewrite (dbt_is _ _ D). auto. }
  rewrite (fix_is _ _ _ F). unfold append_fixed.
  assert (CV : exists r, (do p1 <- convert_to_dbt null0 p; append_dbt null0 junkd p1 q) = Some r /\ Rep (bump r (p_num r + p_num q)) (ks ++ ls)).
  { destruct (convert_to_dbt_ok p ks m K F) as (p1 & -> & D1). auto. }
  destruct RQ' as [DQ|(mq & FQ)].
  { rewrite (d_fix _ _ DQ). exact CV. }
  rewrite (f_mem _ _ _ FQ). destruct (Nat.eqb_spec (p_len q) (p_len p)) as [EL|]; [|exact CV].
  destruct F, FQ. destruct f_slots0 as (ss & rest & -> & S). destruct f_slots1 as (sq & rq & -> & SQ).
  assert (EA : p_align q = p_align p) by congruence. rewrite EA, EL in *.
  pose proof (slots_len _ _ _ _ S) as LS. pose proof (slots_len _ _ _ _ SQ) as LQ.
  change (concat sq ++ rq) with ([] ++ concat sq ++ rq). rewrite (slice_at [] (concat sq) rq) by (cbn; lia).
  unfold realloc. rewrite f_mem0, f_num0, NQ.
  destruct (resize_app junkb (concat ss) rest ((length ks + length ls) * p_align p)) as (z & -> & LZ); [lia|].
  destruct (ptr_any (concat ss ++ z)) as [->|(-> & EN)].
  - rewrite <- (app_nil_r z), (blit_at (concat ss) z (concat sq) []) by lia. eexists. split; [reflexivity|].
    split; auto. right. exists (concat ss ++ concat sq ++ []).
    constructor; unfold bump; cbn [p_fixed p_len p_align p_dbt p_num p_total]; auto.
    + rewrite app_length. lia.
    + rewrite f_tot0, f_tot1, app_length. lia.
    + exists (ss ++ sq), []. split; [now rewrite concat_app, <- app_assoc|]. now apply slots_app.
  - apply app_eq_nil in EN as (ES & ->). rewrite ES in *. cbn [length] in *.
    pose proof (align4_ge (p_len p)). assert (length ks = 0) by nia. assert (length ls = 0) by nia.
    destruct ks; [|discriminate]. destruct ls; [|discriminate]. cbn [length] in LQ. rewrite Nat.mul_0_r in LQ.
    destruct (concat sq); [|cbn in LQ; lia]. cbn [is_nil]. eexists. split; [reflexivity|]. split; [constructor|]. left.
    constructor; unfold bump; cbn; auto. rewrite f_tot0, f_tot1. cbn. lia.
Qed.

Lemma destroy_key_ok a k b t : sum_sizes (a ++ k :: b) <= t ->
  destroy_key_dbt (a ++ k :: b) t (length a) = Some (a ++ [] :: b, t - length k).
Proof. clear null0 junkb junkd. 
  intros L. unfold destroy_key_dbt. rewrite nth_error_app2, Nat.sub_diag by lia. cbn [nth_error].
  rewrite sum_app, sum_cons in L. destruct (Nat.leb_spec (length k) t); [|lia].
  change (a ++ k :: b) with (a ++ [k] ++ b). now rewrite (blit_at a [k] [[]] b).
Qed.
Lemma split_at_nth {A} (ks : list A) i : i < length ks -> exists a k b, ks = a ++ k :: b /\ length a = i.
Proof. clear null0 junkb junkd. 
  intros L. destruct (split_len ks i) as (a & b & -> & LA); [lia|]. rewrite app_length in L. destruct b as [|k b]; [cbn in L; lia|]. eauto.
Qed.
Lemma replace_dbt_ok p a k0 b k : Dbt p (a ++ k0 :: b) ->
  exists q, replace_dbt p k (length a) = Some q /\ Dbt q (a ++ k :: b).
Proof. clear null0 junkb junkd. 
  intros []. unfold replace_dbt. destruct d_dbt0 as [E|(_ & E)]; [|destruct a; discriminate]. rewrite E.
  rewrite destroy_key_ok by lia. unfold add_key_dbt. change (a ++ [] :: b) with (a ++ [[]] ++ b).
  rewrite (blit_at a [[]] [k] b) by auto. eexists. split; [reflexivity|]. constructor; cbn; auto.
  - rewrite d_num0, !app_length. reflexivity.
  - rewrite d_tot0, !sum_app, !sum_cons. lia.
Qed.
Lemma keys_mid a (k0 k : bytes) b : keys_ok (a ++ k0 :: b) -> 0 < length k -> keys_ok (a ++ k :: b).
Proof. clear null0 junkb junkd. unfold keys_ok. rewrite !Forall_app. intros (A & B) L. inversion B; subst. auto. Qed.
Lemma replace_at_ok p a k0 b k : Rep p (a ++ k0 :: b) -> 0 < length k ->
  exists q, replace_at null0 junkb junkd p k (length a) = Some q /\ Rep q (a ++ k :: b).
Proof.
  intros (K & R) LK. pose proof (keys_mid a k0 k b K LK) as K'.
  assert (NP : p_num p = length (a ++ k0 :: b)) by (destruct R as [[]|(m & [])]; auto).
  unfold replace_at. rewrite NP. destruct (Nat.ltb_spec (length a) (length (a ++ k0 :: b))); [|rewrite app_length in *; cbn [length] in *; lia].
  enough (HH : exists q, (if is_fixed p then replace_fixed null0 p k (length a) else replace_dbt p k (length a)) = Some q /\ Rep q (a ++ k :: b)).
  { destruct HH as (q & -> & RP). pose proof (rep_total_pos _ _ RP ltac:(destruct a; discriminate)).
    destruct (Nat.ltb_spec 0 (p_total q)); [eauto|lia]. }
  destruct R as [D|(m & F)].
  - rewrite (dbt_is _ _ D). destruct (replace_dbt_ok p a k0 b k D) as (q & -> & D'). exists q. split; auto. split; auto.
  - rewrite (fix_is _ _ _ F). unfold replace_fixed. destruct (Nat.eqb_spec (length k) (p_len p)) as [EL|].
    + destruct F. rewrite f_mem0. destruct f_slots0 as (ss & rest & -> & S).
      apply slots_split in S as (sa & sb & -> & SA & SB). inversion SB as [|s k' sb' b' SK SB']; subst.
      pose proof (slots_len _ _ _ _ SA) as LSA. destruct SK as (LS & LK0 & pad & ->).
      rewrite concat_app. cbn [concat]. rewrite <- !app_assoc. rewrite (blit_at (concat sa) k0 k) by lia.
      eexists. split; [reflexivity|]. split; auto. right. exists (concat sa ++ k ++ pad ++ concat sb' ++ rest).
      constructor; cbn [p_fixed p_len p_align p_dbt p_num p_total]; auto.
      * rewrite f_num0, !app_length. reflexivity.
      * rewrite f_tot0, !app_length. reflexivity.
      * exists (sa ++ (k ++ pad) :: sb'), rest. split; [rewrite concat_app; cbn [concat]; now rewrite <- !app_assoc|].
        apply slots_app; auto. constructor; auto. split; [rewrite app_length in *; lia|]. split; auto. now exists pad.
    + destruct (convert_to_dbt_ok p _ m K F) as (p1 & -> & D1).
      destruct (replace_dbt_ok p1 a k0 b k D1) as (q & -> & D'). exists q. split; auto. split; auto.
Qed.
Lemma replace_end_ok p ks k : Rep p ks -> 0 < length k ->
  exists q, replace_at null0 junkb junkd p k (length ks) = Some q /\ Rep q (ks ++ [k]).
Proof.
  intros R LK. assert (NP : p_num p = length ks) by (destruct R as (_ & [[]|(m & [])]); auto).
  unfold replace_at. rewrite NP, Nat.ltb_irrefl, Nat.eqb_refl.
  destruct (insert_at_ok p ks k (length ks) R ltac:(lia) LK) as (q & -> & RP). rewrite firstn_all, skipn_all in RP.
  pose proof (rep_total_pos _ _ RP ltac:(destruct ks; discriminate)). destruct (Nat.ltb_spec 0 (p_total q)); [eauto|lia].
Qed.

Lemma delete_at_ok p a k b : Rep p (a ++ k :: b) ->
  exists q, delete_at null0 junkd p (length a) = Some q /\ Rep q (a ++ b).
Proof. clear junkb. 
  intros (K & R). assert (K' : keys_ok (a ++ b)) by (unfold keys_ok in *; rewrite Forall_app in *; destruct K as (A & B); inversion B; auto).
  assert (NP : p_num p = length (a ++ k :: b)) by (destruct R as [[]|(m & [])]; auto).
  unfold delete_at. rewrite NP. rewrite app_length. cbn [length]. destruct (Nat.ltb_spec (length a) (length a + S (length b))); [|lia].
  destruct R as [D|(m & F)].
  - rewrite (dbt_is _ _ D). unfold delete_dbt. destruct D. destruct d_dbt0 as [E|(_ & E)]; [|destruct a; discriminate]. rewrite E.
    rewrite destroy_key_ok by lia. unfold memmove. rewrite NP, app_length. cbn [length].
    replace (a ++ [] :: b) with ((a ++ [[]]) ++ b ++ []) by (now rewrite app_nil_r, <- app_assoc).
    rewrite (slice_at (a ++ [[]]) b []) by (rewrite ?app_length; cbn; lia).
    assert (Y : exists b' y, [[]] ++ b = b' ++ [y] /\ length b' = length b).
    { destruct (exists_last (l := [[]] ++ b)) as (b' & y & E'); [discriminate|]. exists b', y. split; auto.
      apply (f_equal (@length _)) in E'. rewrite !app_length in E'. cbn in E'. lia. }
    destruct Y as (b' & y & EB & LB). rewrite app_nil_r, <- app_assoc, EB.
    rewrite (blit_at a b' b [y]) by auto. unfold realloc.
    rewrite app_assoc. replace (length a + S (length b) - 1) with (length (a ++ b)) by (rewrite app_length; lia). rewrite resize_all.
    eexists. split; [reflexivity|]. split; auto. left. constructor; unfold bump; cbn; auto.
    + rewrite app_length. lia.
    + destruct (ptr_any (a ++ b)) as [->|(-> & ->)]; auto.
    + rewrite d_tot0, !sum_app, !sum_cons. lia.
  - rewrite (fix_is _ _ _ F). unfold delete_fixed. destruct F. rewrite f_mem0. destruct f_slots0 as (ss & rest & -> & S).
    apply slots_split in S as (sa & sb & -> & SA & SB). inversion SB as [|s k' sb' b' SK SB']; subst.
    pose proof (slots_len _ _ _ _ SA) as LSA. pose proof (slots_len _ _ _ _ SB') as LSB. destruct SK as (LS & LK0 & _).
    unfold memmove. rewrite NP, app_length. cbn [length]. rewrite concat_app. cbn [concat].
    replace ((concat sa ++ s ++ concat sb') ++ rest) with ((concat sa ++ s) ++ concat sb' ++ rest) by (now rewrite <- !app_assoc).
    rewrite (slice_at (concat sa ++ s) (concat sb') rest) by (rewrite ?app_length; nia).
    destruct (split_len (s ++ concat sb' ++ rest) (length (concat sb'))) as (y & rest' & EB & LY); [rewrite !app_length; lia|].
    rewrite <- app_assoc, EB. rewrite (blit_at (concat sa) y (concat sb') rest') by lia.
    rewrite f_tot0, app_length. cbn [length]. destruct (Nat.leb_spec (p_align p) (p_align p * (length a + Datatypes.S (length b)))); [|nia].
    eexists. split; [reflexivity|]. split; auto. right. exists (concat sa ++ concat sb' ++ rest').
    constructor; unfold bump; cbn [p_fixed p_len p_align p_dbt p_num p_total]; auto.
    + rewrite app_length. lia.
    + rewrite app_length. nia.
    + exists (sa ++ sb'), rest'. split; [now rewrite concat_app, <- app_assoc|]. now apply slots_app.
Qed.

Lemma from_fixed_ok p a b ks mem : Fix p ks mem -> ks = a ++ b -> keys_ok b ->
  exists q, create_from_fixed null0 mem (length a * p_align p) (p_len p) (length b) = Some q /\ Rep q b /\
            (b <> [] -> is_fixed q = true).
Proof. clear junkb junkd. 
  intros [] -> K. destruct f_slots0 as (ss & rest & -> & S).
  apply slots_split in S as (sa & sb & -> & SA & SB).
  pose proof (slots_len _ _ _ _ SA) as LSA. pose proof (slots_len _ _ _ _ SB) as LSB.
  unfold create_from_fixed. rewrite concat_app, <- app_assoc, <- f_al0. rewrite (slice_at (concat sa) (concat sb) rest) by lia.
  pose proof (align4_ge (p_len p)).
  eexists. split; [reflexivity|]. destruct b as [|k b].
  - split; [|congruence]. split; auto. destruct (ptr_any (concat sb)) as [->|(-> & _)].
    + right. exists (concat sb). constructor; cbn [p_fixed p_len p_align p_dbt p_num p_total]; auto.
      exists sb, []. rewrite app_nil_r. auto.
    + left. constructor; cbn; auto.
  - rewrite ptr_ne by (intros X; rewrite X in LSB; cbn [length] in LSB; nia). split; [|reflexivity]. split; auto. right. exists (concat sb).
    constructor; cbn [p_fixed p_len p_align p_dbt p_num p_total]; auto. exists sb, []. rewrite app_nil_r. auto.
Qed.
Lemma clone_ok p ks : Rep p ks -> exists q, clone null0 junkb p = Some q /\ Rep q ks.
Proof. clear junkd. 
  intros (K & [D|(m & F)]); unfold clone.
  - rewrite (dbt_arr _ _ D). destruct D. rewrite d_fix0, d_num0, slice_all. now apply from_dbts_ok.
  - rewrite (f_mem _ _ _ F), (f_num _ _ _ F).
    destruct (from_fixed_ok p [] ks ks m F eq_refl K) as (q & E & R & _). cbn [length Nat.mul] in E. rewrite E.
    rewrite (rep_sanity _ _ R). eauto.
Qed.
Lemma destroy_keys_ok a b t : sum_sizes b <= t ->
  destroy_keys (a ++ b) t (length a) (length b) = Some (a ++ map (fun _ => []) b, t - sum_sizes b).
Proof. clear null0 junkb junkd. 
  revert a t. induction b as [|k b IH]; intros a t L; cbn [destroy_keys length map].
  { cbn. now rewrite Nat.sub_0_r. }
  rewrite sum_cons in L.
  assert (DK : destroy_key_dbt (a ++ k :: b) t (length a) = Some (a ++ [] :: b, t - length k)).
  { unfold destroy_key_dbt. rewrite nth_error_app2, Nat.sub_diag by lia. cbn [nth_error].
    destruct (Nat.leb_spec (length k) t); [|lia]. change (a ++ k :: b) with (a ++ [k] ++ b). now rewrite (blit_at a [k] [[]] b). }
  rewrite DK. replace (a ++ [] :: b) with ((a ++ [[]]) ++ b) by (now rewrite <- app_assoc).
  specialize (IH (a ++ [[]]) (t - length k)). rewrite app_length in IH. cbn [length] in IH. rewrite Nat.add_1_r in IH.
  rewrite IH by lia. rewrite <- app_assoc. cbn [app]. rewrite sum_cons. do 2 f_equal. lia.
Qed.
Lemma split_at_ok p a b other : Rep p (a ++ b) -> b <> [] ->
  exists q r, split_at null0 junkb junkd p (length a) other = Some (q, r) /\ Rep q a /\ Rep r b.
Proof.
  intros (K & R) NE. assert (KA : keys_ok a /\ keys_ok b) by (apply Forall_app; auto). destruct KA as (KA & KB).
  assert (NP : p_num p = length (a ++ b)) by (destruct R as [[]|(m & [])]; auto).
  assert (LB : 0 < length b) by (destruct b; [congruence|cbn; lia]).
  unfold split_at. rewrite NP. rewrite app_length. destruct (Nat.ltb_spec (length a) (length a + length b)); [|lia].
  enough (HH : exists p1 q, (if is_fixed p then split_fixed null0 junkb p (length a) else split_dbt null0 junkb junkd p (length a)) = Some (p1, q) /\
     Rep (bump p1 (length a)) a /\ Rep q b).
  { destruct HH as (p1 & q & -> & R1 & R2). rewrite (rep_sanity _ _ R1). eauto. }
  destruct R as [D|(m & F)].
  - rewrite (dbt_is _ _ D). unfold split_dbt. destruct D. destruct d_dbt0 as [E|(_ & E)]; [|apply app_eq_nil in E as (_ & E); congruence]. rewrite E, NP, app_length.
    replace (length a + length b - length a) with (length b) by lia.
    assert (SL : slice (a ++ b) (length a) (length b) = Some b) by (pose proof (slice_app a b []) as X; now rewrite app_nil_r in X).
    rewrite SL.
    destruct (from_dbts_ok b KB) as (q & -> & RQ).
    rewrite sum_app in d_tot0. rewrite destroy_keys_ok by lia. unfold realloc. rewrite resize_all.
    eexists _, q. split; [reflexivity|]. split; auto. split; auto. left. constructor; unfold bump; cbn; auto.
    + destruct (ptr_any a) as [->|(-> & ->)]; auto.
    + lia.
  - rewrite (fix_is _ _ _ F). unfold split_fixed. rewrite (f_mem _ _ _ F), NP, app_length.
    replace (length a + length b - length a) with (length b) by lia.
    destruct (from_fixed_ok p a b _ m F eq_refl KB) as (q & -> & RQ & _).
    eexists _, q. split; [reflexivity|]. split; auto. split; auto.
    destruct F. destruct f_slots0 as (ss & rest & -> & S). apply slots_split in S as (sa & sb & -> & SA & SB).
    pose proof (slots_len _ _ _ _ SA) as LSA. unfold realloc. rewrite concat_app, <- app_assoc.
    replace (length a * p_align p) with (length (concat sa)) by lia. rewrite resize_all.
    pose proof (align4_ge (p_len p)).
    destruct (ptr_any (concat sa)) as [->|(-> & E)].
    + right. exists (concat sa). constructor; unfold bump; cbn [p_fixed p_len p_align p_dbt p_num p_total]; auto.
      exists sa, []. rewrite app_nil_r. auto.
    + left. rewrite E in LSA. cbn in LSA. assert (length a = 0) by nia. destruct a; [|discriminate]. rewrite E.
      constructor; unfold bump; cbn; auto.
Qed.
Lemma split_beyond_ok p ks other i : Rep p ks -> length ks <= i -> split_at null0 junkb junkd p i other = Some (p, other).
Proof.
  intros R L. assert (NP : p_num p = length ks) by (destruct R as (_ & [[]|(m & [])]); auto).
  unfold split_at. rewrite NP. destruct (Nat.ltb_spec i (length ks)); [lia|]. now rewrite (rep_sanity _ _ R).
Qed.

(** ** Sizes and serialization *)
Lemma serialized_ok p ks : Rep p ks -> serialized_size p = sum_sizes ks.
Proof. clear null0 junkb junkd. 
  intros (_ & [D|(m & F)]); unfold serialized_size.
  - rewrite (dbt_is _ _ D). apply D.
  - rewrite (fix_is _ _ _ F). destruct F. destruct f_slots0 as (ss & rest & -> & S).
    rewrite (sum_fixed (p_len p) ks) by (eapply slots_sizes; eauto). congruence.
Qed.
Lemma total_ok p ks : Rep p ks ->
  total_size p = sum_sizes ks \/ (is_fixed p = true /\ total_size p = fold_right (fun k n => align4 (length k) + n) 0 ks).
Proof. clear null0 junkb junkd. 
  intros (_ & [D|(m & F)]); unfold total_size; [left; apply D|right]. split; [eapply fix_is; eauto|].
  destruct F. destruct f_slots0 as (ss & rest & -> & S). apply slots_sizes in S. rewrite f_tot0, f_al0. clear - S.
  induction S as [|k ks E _ IH]; cbn [length fold_right]; [lia|]. rewrite <- IH, E. lia.
Qed.
Definition keys_enc (ks : list bytes) : bytes := concat (map bs_enc ks).
Lemma len_keys_enc ks : len (keys_enc ks) = N.of_nat (4 * length ks + sum_sizes ks).
Proof. clear null0 junkb junkd. 
  induction ks as [|k ks IH]; [reflexivity|]. unfold keys_enc in *. cbn [map concat length]. rewrite len_app, IH, sum_cons.
  unfold bs_enc. rewrite len_app, len_le_enc. unfold len. lia.
Qed.
Lemma wput_keys_ok w ks n : keys_ok ks -> room w (N.of_nat (4 * length ks + sum_sizes ks)) ->
  exists w', wput_keys w ks n = Some (w', n + sum_sizes ks) /\ w_size w' = w_size w /\ w_out w' = w_out w ++ keys_enc ks.
Proof. clear null0 junkb junkd. 
  intros K. revert w n. induction K as [|k ks K _ IH]; intros w n R; cbn [wput_keys].
  { exists w. unfold keys_enc. cbn. rewrite app_nil_r, Nat.add_0_r. auto. }
  destruct (Nat.eqb_spec (length k) 0); [lia|]. cbn [negb]. unfold room in R. cbn [length] in R. rewrite sum_cons in R.
  destruct (wbuf_nocrc_bytes_ok w k) as (w1 & -> & S1 & O1); [unfold room, len in *; lia|].
  destruct (IH w1 (n + length k)) as (w2 & E2 & S2 & O2).
  { unfold room. rewrite S1, O1, len_app. unfold bs_enc. rewrite len_app, len_le_enc. unfold len in *. lia. }
  exists w2. rewrite E2, sum_cons, Nat.add_assoc. split; auto. split; [congruence|].
  rewrite O2, O1. unfold keys_enc. cbn [map concat]. now rewrite <- app_assoc.
Qed.
Lemma serialize_ok w p ks : Rep p ks -> room w (N.of_nat (4 * length ks + sum_sizes ks)) ->
  exists w', serialize w p = Some w' /\ w_size w' = w_size w /\ w_out w' = w_out w ++ keys_enc ks.
Proof. clear null0 junkb junkd. 
  intros R RM. unfold serialize. rewrite (other_keys_ok _ _ R). destruct (wput_keys_ok w ks 0 (proj1 R) RM) as (w' & -> & S & O).
  rewrite (serialized_ok _ _ R). cbn [Nat.add]. rewrite Nat.eqb_refl. eauto.
Qed.
Lemma rget_keys_ok ks r : Forall (fun k => (len k < 2 ^ 32)%N) ks -> rget_keys (keys_enc ks ++ r) (length ks) = Some (ks, r).
Proof. clear null0 junkb junkd. 
  induction 1 as [|k ks K _ IH]; [reflexivity|]. unfold keys_enc in *. cbn [map concat length rget_keys].
  rewrite <- app_assoc, rbuf_bytes_app by auto. now rewrite IH.
Qed.
Lemma deserialize_ok ks r : keys_ok ks -> Forall (fun k => (len k < 2 ^ 32)%N) ks ->
  exists p, deserialize null0 junkb (keys_enc ks ++ r) (length ks) = Some (p, r) /\ Rep p ks.
Proof. clear junkd. 
  intros K F. unfold deserialize. rewrite rget_keys_ok by auto. cbv zeta. set (p := mkPk _ _ _ _ _ _).
  assert (X : Dbt p ks).
  { constructor; cbn; auto. destruct (ptr_any ks) as [E|(E & E2)]; rewrite E; auto. }
  destruct (same_size ks && (0 <? length ks)) eqn:C.
  - apply andb_true_iff in C as (C1 & C2). apply Nat.ltb_lt in C2.
    destruct (convert_to_fixed_ok p ks K X ltac:(destruct ks; [cbn in C2; lia|discriminate]) C1) as (q & mem & -> & F').
    rewrite (fix_sanity _ _ _ F'). exists q. split; auto. split; eauto.
  - rewrite (dbt_sanity _ _ X). exists p. split; auto. split; auto.
Qed.
End Ops.
