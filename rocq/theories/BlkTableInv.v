(** The invariant of the block table and its preservation by every operation. *)
From Verif Require Import Base MhsModel MhsHoles BlkAllocModel BlkAllocProofs BlkTableModel BlkTableProofs
  TransCodecProofs.
From Coq Require Import Permutation.
Open Scope Z_scope.

(** Allocated extents, each with the block number it was allocated for. *)
Notation owned := (list (nat * ext)).
Definition covers (A : owned) (t : trans) : Prop := forall i e, refs t i = Some e -> In (i, e) A.
(** All but block [b]. *)
Definition covers_x (b : nat) (A : owned) (t : trans) : Prop :=
  forall i e, i <> b -> refs t i = Some e -> In (i, e) A.

Definition binv (s : btab) (A : owned) : Prop := ainv 8192%N 4096%N (b_ba s) (map snd A).

Definition trs (s : btab) : list trans :=
  b_cur s :: b_cp s :: match b_ip s with Some t => [t] | None => [] end.
Definition refd (s : btab) (x : nat * ext) : Prop := exists t, In t (trs s) /\ refs t (fst x) = Some (snd x).
(** Two translations refer to the same extents (the translation's own one aside). *)
Definition same_refs (t u : trans) : Prop := forall i, i <> 1%nat -> refs t i = refs u i.

(** [sm]: no translation ever used more than 8192 block numbers, so that a free-list link
    cannot be mistaken for a disk offset. *)
Record bt_inv (sm : Prop) (A : owned) (s : btab) : Prop := {
  bi_ba : binv s A;
  bi_wf : forall t, In t (trs s) -> swf t /\ covers A t;
  bi_cur1 : ent (b_cur s) 1 = Some unalloc;
  bi_len_cp : length (t_arr (b_cp s)) = snub (b_cp s);
  bi_len_ip : forall t, b_ip s = Some t -> length (t_arr t) = snub t;
  bi_skip : forall t, b_ip s = Some t -> b_skip s = true -> same_refs t (b_cp s) /\ refs t 1 = None;
  bi_E : forall t, b_ip s = Some t -> b_skip s = false ->
    forall i e, refs (b_cp s) i = Some e -> refs (b_cur s) i = Some e -> refs t i = Some e;
  bi_sm : sm -> forall t, In t (trs s) -> t_snub t <= 8192;
  bi_leak : sm -> forall x, In x A -> refd s x }.

(** The dirty bits: a clean header means nothing to write. *)
Record dirty_inv (s : btab) : Prop := {
  di_idle : b_ip s = None -> h_dirty s = false -> same_refs (b_cur s) (b_cp s);
  di_ck : forall t, b_ip s = Some t -> ch_dirty s = false -> same_refs t (b_cp s) /\ refs t 1 = None;
  di_cur : forall t, b_ip s = Some t -> h_dirty s = false -> same_refs (b_cur s) t }.

(** * Owned extents *)
Lemma reserve_ok : (512 <= 4096)%N /\ (4096 mod 512 = 0)%N /\ (4096 <= 2 ^ 32)%N /\ (8192 <= 2 ^ 32)%N.
Proof. repeat split; lia. Qed.

Lemma pdisj_in2 es x y : pdisj es -> In x es -> In y es -> x = y \/ disj x y.
Proof.
  induction es as [|e l IH]; [intros _ []|]. intros (D & P) [<-|Hx] [<-|Hy]; auto.
  - right. rewrite Forall_forall in D. auto.
  - right. rewrite Forall_forall in D. apply disj_sym. auto.
Qed.

Lemma owned_good s A i e : binv s A -> In (i, e) A ->
  (0 < snd e)%N /\ (8192 <= fst e)%N /\ (fst e mod 4096 = 0)%N /\ (ext_end e <= LIM)%N.
Proof.
  intros I H. pose proof (ai_good _ _ _ _ I) as G. rewrite Forall_forall in G. apply G.
  apply in_map_iff. exists (i, e). auto.
Qed.
Lemma owned_uniq s : forall A i e j f, binv s A -> In (i, e) A -> In (j, f) A -> ~ disj e f -> i = j /\ e = f.
Proof.
  intros A i e j f I Hi Hj Nd. pose proof (ai_disj _ _ _ _ I) as P. pose proof (ai_good _ _ _ _ I) as G. clear I.
  induction A as [|(k, g) A IH]; [destruct Hi|]. cbn [map snd] in P. destruct P as (D & P).
  inversion G; subst. rewrite Forall_forall in D.
  destruct Hi as [Ei|Hi], Hj as [Ej|Hj]; try (injection Ei as -> ->); try (injection Ej as -> ->); auto.
  - exfalso. apply Nd, D. apply in_map_iff. exists (j, f). auto.
  - exfalso. apply Nd, disj_sym, D. apply in_map_iff. exists (i, e). auto.
Qed.
Lemma disj_same e f : (0 < snd e)%N -> (0 < snd f)%N -> fst e = fst f -> ~ disj e f.
Proof. unfold disj, ext_end. lia. Qed.
Lemma owned_off s A i e j f : binv s A -> In (i, e) A -> In (j, f) A -> fst e = fst f -> i = j /\ e = f.
Proof.
  intros I Hi Hj E. eapply owned_uniq; eauto. apply disj_same; auto; eapply owned_good; eauto.
Qed.
Lemma owned_split s A i e : binv s A -> In (i, e) A -> exists A', Permutation A ((i, e) :: A') /\
  (forall x, In x A' -> In x A) /\ (forall x, In x A -> x <> (i, e) -> In x A') /\
  (forall j f, In (j, f) A' -> disj e f).
Proof.
  intros I H. destruct (in_split _ _ H) as (l1 & l2 & E). exists (l1 ++ l2).
  assert (P : Permutation A ((i, e) :: l1 ++ l2)) by (rewrite E; symmetry; apply Permutation_middle).
  split; auto. split; [|split].
  - intros x Hx. eapply Permutation_in; [symmetry; exact P|]. cbn. auto.
  - intros x Hx Hn. apply (Permutation_in _ P) in Hx. destruct Hx; [congruence|auto].
  - intros j f Hj. assert (P' : Permutation (map snd A) (e :: map snd (l1 ++ l2))) by (rewrite P; reflexivity).
    pose proof (pdisj_perm _ _ P' (ai_disj _ _ _ _ I)) as (D & _). rewrite Forall_forall in D. apply D.
    apply in_map_iff. exists (j, f). auto.
Qed.
Lemma owned_free s A i e : binv s A -> In (i, e) A -> exists A' a',
  ba_free (b_ba s) (fst e) (snd e) = Some a' /\ ainv 8192%N 4096%N a' (map snd A') /\
  (forall x, In x A' -> In x A) /\ (forall x, In x A -> x <> (i, e) -> In x A') /\
  (forall j f, In (j, f) A' -> disj e f).
Proof.
  intros I H. destruct (owned_split _ _ _ _ I H) as (A' & P & H1 & H2 & H3). exists A'.
  destruct (free_ok 8192 4096 ltac:(lia) eq_refl ltac:(lia) ltac:(lia) (b_ba s) (map snd A) e (map snd A')) as (a' & E1 & E2); auto.
  - rewrite P. reflexivity.
  - exists a'. auto.
Qed.

Lemma refs_ent t i e : swf t -> refs t i = Some e <->
  ent t i = Some (mkP (Z.of_N (fst e)) (Z.of_N (snd e))) /\ (0 < snd e)%N.
Proof.
  intros W. unfold refs. destruct (ent t i) as [[o z]|] eqn:E.
  - cbn [p_size p_off]. destruct (Z.ltb_spec 0 z) as [H|H].
    + pose proof (sw_pair _ W _ _ E) as [F|[F|F]]; unfold is_free, unalloc, size_is_free in *; cbn [p_size p_off] in *; [lia|injection F; lia|].
      destruct F as (_ & F). destruct e as [eo es]. cbn [fst snd]. split.
      * intros Q. injection Q as <- <-. rewrite !Z2N.id by lia. split; auto. lia.
      * intros (Q & _). injection Q as -> ->. rewrite !N2Z.id. reflexivity.
    + split; [discriminate|]. intros (Q & Hp). injection Q as -> ->. lia.
  - split; [discriminate|]. intros (Q & _). discriminate.
Qed.
Lemma refs_lt t i e : swf t -> refs t i = Some e -> (i < snub t)%nat.
Proof.
  intros W H. apply refs_ent in H; auto. destruct H as (H & Hp).
  destruct (Nat.lt_ge_cases i (snub t)) as [|G]; auto. pose proof (sw_high _ W _ _ H G) as F.
  unfold is_free, size_is_free in F. cbn [p_size] in F. lia.
Qed.
(** Equal non-free entries make equal references. *)
Lemma refs_iff t u : (forall i p, ~ is_free p -> ent t i = Some p <-> ent u i = Some p) ->
  forall i, refs t i = refs u i.
Proof.
  intros H i. unfold refs. destruct (ent t i) as [p|] eqn:E.
  - destruct (Z.eq_dec (p_size p) size_is_free) as [F|F].
    + destruct (Z.ltb_spec 0 (p_size p)); [unfold size_is_free in F; lia|].
      destruct (ent u i) as [q|] eqn:E'; auto. destruct (Z.ltb_spec 0 (p_size q)) as [G|G]; auto.
      assert (E2 : ent t i = Some q) by (apply H; [unfold is_free, size_is_free; lia|auto]).
      assert (p = q) by congruence. subst. unfold size_is_free in F. lia.
    + apply H in E; [|exact F]. rewrite E. reflexivity.
  - destruct (ent u i) as [q|] eqn:E'; auto. destruct (Z.ltb_spec 0 (p_size q)) as [G|G]; auto.
    assert (E2 : ent t i = Some q) by (apply H; [unfold is_free, size_is_free; lia|auto]). congruence.
Qed.
Lemma refs_at t i : refs t i = match ent t i with
  | Some p => if 0 <? p_size p then Some (Z.to_N (p_off p), Z.to_N (p_size p)) else None | None => None end.
Proof. reflexivity. Qed.

Lemma covers_incl A A' t : (forall x, In x A -> In x A') -> covers A t -> covers A' t.
Proof. intros H C i e E. auto. Qed.

(** _translation_prevents_freeing *)
Lemma prevents_ok t b old : swf t -> exists x, prevents (Some t) (Z.of_nat b) old = Some x /\
  (x = true <-> (b < snub t)%nat /\ exists p, ent t b = Some p /\ p_off p = p_off old).
Proof.
  intros W. pose proof (swf_len _ W). pose proof (snub_z _ W) as Hz. unfold prevents.
  destruct (Z.ltb_spec (Z.of_nat b) (t_snub t)) as [H1|H1].
  - rewrite get_nat. destruct (ent_some t b) as (p & Ep); [lia|]. unfold ent in Ep. rewrite Ep.
    eexists; split; [reflexivity|]. split.
    + intros E. apply Z.eqb_eq in E. split; [lia|]. exists p. auto.
    + intros (_ & q & Eq & E). unfold ent in Eq. assert (p = q) by congruence. subst. apply Z.eqb_eq. auto.
  - eexists; split; [reflexivity|]. split; [discriminate|]. intros (Hb & _). lia.
Qed.
Lemma prevents_true sm A s t b (e : ext) old : bt_inv sm A s -> sm -> In t (trs s) -> In (b, e) A ->
  p_off old = Z.of_N (fst e) ->
  forall x, prevents (Some t) (Z.of_nat b) old = Some x -> x = true -> refs t b = Some e.
Proof.
  intros I S Ht He Ho x Hx ->. destruct (bi_wf _ _ _ I _ Ht) as (W & C).
  destruct (prevents_ok t b old W) as (x' & Hx' & X). assert (x' = true) by congruence.
  apply X in H. destruct H as (Hb & p & Ep & Eo). clear X.
  pose proof (owned_good _ _ _ _ (bi_ba _ _ _ I) He) as (G1 & G2 & _).
  pose proof (sw_pair _ W _ _ Ep) as [F|[F|F]].
  - exfalso. pose proof (swf_link _ _ _ W Ep F Hb). pose proof (bi_sm _ _ _ I S _ Ht). unfold freelist_null in *. lia.
  - exfalso. subst p. cbn [unalloc p_off] in Eo. unfold diskoff_unused in Eo. lia.
  - assert (R : refs t b = Some (Z.to_N (p_off p), Z.to_N (p_size p))).
    { rewrite refs_at, Ep. destruct (Z.ltb_spec 0 (p_size p)); [auto|lia]. }
    pose proof (C _ _ R) as Hin.
    destruct (owned_off _ _ _ _ _ _ (bi_ba _ _ _ I) Hin He) as (_ & E); [cbn [fst]; lia|]. congruence.
Qed.
Lemma prevents_false t b (e : ext) old : swf t -> p_off old = Z.of_N (fst e) ->
  prevents (Some t) (Z.of_nat b) old = Some false -> forall f, refs t b = Some f -> fst f <> fst e.
Proof.
  intros W Ho Hx f Hf E. destruct (prevents_ok t b old W) as (x' & Hx' & X). assert (x' = false) by congruence.
  assert (x' = true); [|congruence]. apply X. split; [eapply refs_lt; eauto|].
  apply refs_ent in Hf; auto. destruct Hf as (Hf & _). eexists; split; [exact Hf|]. cbn [p_off]. congruence.
Qed.

Lemma limit_mono s A A' a' L : binv s A -> ainv 8192%N 4096%N a' (map snd A') -> (forall x, In x A' -> In x A) ->
  ba_limit (b_ba s) = Some L -> exists L', ba_limit a' = Some L' /\ (L' <= L)%N.
Proof.
  intros I I' H HL.
  destruct (limit_ok 8192 4096 ltac:(lia) eq_refl ltac:(lia) ltac:(lia) (b_ba s) (map snd A) I) as (L0 & E0 & B0 & U0 & _).
  destruct (limit_ok 8192 4096 ltac:(lia) eq_refl ltac:(lia) ltac:(lia) a' (map snd A') I') as (L' & E1 & B1 & _ & D1).
  assert (L0 = L) by congruence. subst L0. exists L'. split; auto. destruct D1 as [->|(e & He & <-)]; [lia|].
  apply U0. apply in_map_iff in He. destruct He as (x & <- & Hx). apply in_map. auto.
Qed.

Lemma u64_of_N n : (n < 2 ^ 64)%N -> to_u64 (Z.of_N n) = n.
Proof. intros H. rewrite u64_small by lia. apply N2Z.id. Qed.
Lemma i64_of_N n : (n < 2 ^ 63)%N -> to_i64 n = Z.of_N n.
Proof. intros H. unfold to_i64. destruct (N.ltb_spec n (2 ^ 63)); [auto|lia]. Qed.

Definition new_pair (e : ext) : pair := mkP (Z.of_N (fst e)) (Z.of_N (snd e)).
Lemma new_pair_ok e : (0 < snd e)%N -> pair_ok (new_pair e) /\ ~ is_free (new_pair e).
Proof.
  intros H. unfold new_pair, pair_ok, is_free, size_is_free; cbn [p_size p_off]. split; [right; right; lia|lia].
Qed.
Definition put_at (b : nat) (p : pair) (t t' : trans) : Prop :=
  t_snub t' = t_snub t /\ t_head t' = t_head t /\ length (t_arr t') = length (t_arr t) /\
  forall i, ent t' i = if (i =? b)%nat then Some p else ent t i.
Lemma put_refs b e t t' : put_at b (new_pair e) t t' -> (0 < snd e)%N ->
  forall i, refs t' i = if (i =? b)%nat then Some e else refs t i.
Proof.
  intros (_ & _ & _ & H) He i. rewrite !refs_at, H. destruct (Nat.eqb_spec i b); auto.
  unfold new_pair; cbn [p_size p_off]. destruct (Z.ltb_spec 0 (Z.of_N (snd e))); [|lia].
  rewrite !N2Z.id. now destruct e.
Qed.
Lemma put_swf b e t t' q : swf t -> put_at b (new_pair e) t t' -> (0 < snd e)%N -> (b < snub t)%nat ->
  ent t b = Some q -> ~ is_free q -> swf t'.
Proof.
  intros W (P1 & P2 & P3 & P4) He Hb Hq Hf. destruct (new_pair_ok e He) as (N1 & N2).
  eapply swf_set with (t := t) (n := b) (p := new_pair e); eauto.
  intros q' Hq'. assert (q = q') by congruence. now subst.
Qed.
Lemma put_covers b e A t t' : put_at b (new_pair e) t t' -> (0 < snd e)%N -> covers_x b A t -> covers ((b, e) :: A) t'.
Proof.
  intros P He C i f Hf. rewrite (put_refs _ _ _ _ P He) in Hf. destruct (Nat.eqb_spec i b).
  - injection Hf as <-. subst. left. auto.
  - right. auto.
Qed.
Lemma covers_is_x b A t : covers A t -> covers_x b A t.
Proof. intros C i e _. apply C. Qed.

(** Extents in [A] keep the covers when [(b, e)], referenced by [t] nowhere, leaves. *)
Lemma covers_drop s A A' b e t : binv s A -> In (b, e) A -> covers A t ->
  (forall x, In x A -> x <> (b, e) -> In x A') -> (forall f, refs t b = Some f -> fst f <> fst e) -> covers A' t.
Proof.
  intros I He C H F i f Hf. apply H; [apply C; auto|]. intros E. injection E as -> ->. eapply F; eauto.
Qed.

Record realloc_post (sm : Prop) (s : btab) (A : owned) (b : nat) (ck : bool) (s' : btab) (e : ext) (A1 : owned) : Prop := {
  rp_inv : bt_inv sm ((b, e) :: A1) s';
  rp_dirty : dirty_inv s -> dirty_inv s';
  rp_incl : forall x, In x A1 -> In x A;
  rp_cp : covers A1 (b_cp s);
  rp_cur : covers_x b A1 (b_cur s);
  rp_ip : forall ip, b_ip s = Some ip -> if ck then covers_x b A1 ip else covers A1 ip;
  rp_put : put_at b (new_pair e) (b_cur s) (b_cur s');
  rp_put_ip : if ck then exists ip ip', b_ip s = Some ip /\ b_ip s' = Some ip' /\ put_at b (new_pair e) ip ip'
              else b_ip s' = b_ip s;
  rp_cp_eq : b_cp s' = b_cp s;
  rp_skip : b_skip s' = b_skip s;
  rp_h : h_dirty s' = (if ck then h_dirty s else true);
  rp_ch : ch_dirty s' = (if ck then true else ch_dirty s) }.

Definition ck_ok (s : btab) (b : nat) : Prop :=
  exists ip, b_ip s = Some ip /\ b_skip s = false /\ (b < snub ip)%nat /\ ent ip b = ent (b_cur s) b.

(** The old extent of a block that is about to be rewritten or freed. *)
Lemma drop_old sm A s b (e : ext) old (ck : bool) : bt_inv sm A s ->
  refs (b_cur s) b = Some e -> p_off old = Z.of_N (fst e) -> p_size old = Z.of_N (snd e) ->
  (ck = true -> ck_ok s b) ->
  exists x cannot, (if ck then Some false else prevents (b_ip s) (Z.of_nat b) old) = Some x /\
    (if x then Some true else prevents (Some (b_cp s)) (Z.of_nat b) old) = Some cannot /\
    (sm -> cannot = true -> refs (b_cp s) b = Some e \/ (ck = false /\ exists ip, b_ip s = Some ip /\ refs ip b = Some e)) /\
    (cannot = false -> (forall f, refs (b_cp s) b = Some f -> fst f <> fst e) /\
      (ck = false -> forall ip, b_ip s = Some ip -> forall f, refs ip b = Some f -> fst f <> fst e)).
Proof.
  intros I R O Sz Hck.
  assert (Hin : In (b, e) A) by (apply (bi_wf _ _ _ I (b_cur s)); cbn; auto).
  assert (Wcp : swf (b_cp s)) by (apply (bi_wf _ _ _ I); cbn; auto).
  destruct (prevents_ok (b_cp s) b old Wcp) as (y & Ey & _).
  assert (Pcp : y = true -> sm -> refs (b_cp s) b = Some e).
  { intros -> S. eapply prevents_true; eauto. cbn. auto. }
  assert (Qcp : y = false -> forall f, refs (b_cp s) b = Some f -> fst f <> fst e).
  { intros ->. eapply prevents_false; eauto. }
  destruct ck.
  - exists false, y. repeat split; auto; try discriminate.
  - destruct (b_ip s) as [ip|] eqn:Eip.
    + assert (Hip : In ip (trs s)) by (unfold trs; rewrite Eip; cbn; auto).
      assert (Wip : swf ip) by (apply (bi_wf _ _ _ I); auto).
      destruct (prevents_ok ip b old Wip) as (x & Ex & _). exists x.
      assert (Pip : x = true -> sm -> refs ip b = Some e).
      { intros -> S. eapply prevents_true; eauto. }
      assert (Qip : x = false -> forall f, refs ip b = Some f -> fst f <> fst e).
      { intros ->. eapply prevents_false; eauto. }
      rewrite Ex. destruct x.
      * exists true. repeat split; auto; try discriminate. intros S _. right. split; auto. exists ip. auto.
      * exists y. repeat split; auto. intros _ ip' E. injection E as <-. auto.
    + exists false, y. cbn [prevents]. repeat split; auto. intros; discriminate.
Qed.

Theorem realloc_ok sm A s b size ck old L :
  bt_inv sm A s -> (2 <= b)%nat -> (b < snub (b_cur s))%nat -> ent (b_cur s) b = Some old -> ~ is_free old ->
  0 < size -> ba_limit (b_ba s) = Some L -> (L + 4096 + Z.to_N size <= LIM)%N -> (ck = true -> ck_ok s b) ->
  exists s' off A1, realloc_internal s (Z.of_nat b) size ck = Some (s', Z.of_N off) /\
    realloc_post sm s A b ck s' (off, Z.to_N size) A1.
Proof.
  intros I Hb Hb' Eo Nf Hs HL Hroom Hck. unfold realloc_internal.
  assert (Wc : swf (b_cur s)) by (apply (bi_wf _ _ _ I); cbn; auto).
  pose proof (swf_len _ Wc) as HLc.
  assert (D : exists s1, set_dirty s ck = Some s1 /\ b_cur s1 = b_cur s /\ b_ip s1 = b_ip s /\ b_cp s1 = b_cp s /\
    b_skip s1 = b_skip s /\ b_ba s1 = b_ba s /\ h_dirty s1 = (if ck then h_dirty s else true) /\
    ch_dirty s1 = (if ck then true else ch_dirty s)).
  { unfold set_dirty. destruct ck; [|eexists; split; [reflexivity|]; repeat split].
    destruct (Hck eq_refl) as (ip & Eip & _). rewrite Eip. cbn [is_some]. eexists; split; [reflexivity|]. repeat split; auto. }
  destruct D as (s1 & -> & D1 & D2 & D3 & D4 & D5 & D6 & D7). rewrite D1, D2, D3, D4, D5, D6, D7.
  rewrite get_nat. unfold ent in Eo. rewrite Eo. fold (ent (b_cur s) b) in Eo.
  (* the old extent *)
  assert (X : exists x cannot A1 a1, (if ck then Some false else prevents (b_ip s) (Z.of_nat b) old) = Some x /\
    (if x then Some true else prevents (Some (b_cp s)) (Z.of_nat b) old) = Some cannot /\
    (if negb cannot && negb (p_off old =? diskoff_unused)
           then ba_free (b_ba s) (to_u64 (p_off old)) (to_u64 (p_size old))
           else Some (b_ba s)) = Some a1 /\
    ainv 8192%N 4096%N a1 (map snd A1) /\ (forall x, In x A1 -> In x A) /\
    covers A1 (b_cp s) /\ covers_x b A1 (b_cur s) /\ (forall ip, b_ip s = Some ip -> if ck then covers_x b A1 ip else covers A1 ip) /\
    (sm -> forall i e, In (i, e) A1 -> (i = b -> refs (b_cp s) b = Some e \/ (ck = false /\ exists ip, b_ip s = Some ip /\ refs ip b = Some e)) /\
       refd s (i, e))).
  { pose proof (bi_wf _ _ _ I) as BW.
    assert (Ccp : covers A (b_cp s)) by (apply BW; cbn; auto).
    assert (Ccu : covers A (b_cur s)) by (apply BW; cbn; auto).
    assert (Cip : forall ip, b_ip s = Some ip -> swf ip /\ covers A ip).
    { intros ip E. apply BW. unfold trs. rewrite E. cbn. auto. }
    pose proof (sw_pair _ Wc _ _ Eo) as [F|[F|F]]; [contradiction| |].
    - (* unallocated: nothing to free *)
      subst old. assert (R : refs (b_cur s) b = None) by (rewrite refs_at, Eo; reflexivity).
      assert (Hx : exists x, (if ck then Some false else prevents (b_ip s) (Z.of_nat b) unalloc) = Some x).
      { destruct ck; eauto. destruct (b_ip s) as [ip|] eqn:E; [|cbn; eauto].
        destruct (Cip ip eq_refl) as (W & _). destruct (prevents_ok ip b unalloc W) as (x & Ex & _). eauto. }
      destruct Hx as (x & Ex). rewrite Ex.
      assert (Hy : exists y, (if x then Some true else prevents (Some (b_cp s)) (Z.of_nat b) unalloc) = Some y).
      { destruct x; eauto. destruct (BW (b_cp s)) as (W & _); [cbn; auto|].
        destruct (prevents_ok (b_cp s) b unalloc W) as (y & Ey & _). eauto. }
      destruct Hy as (y & Ey). exists x, y, A, (b_ba s). split; auto. split; auto.
      cbn [unalloc p_off]. rewrite Z.eqb_refl, andb_false_r. split; auto. split; [exact (bi_ba _ _ _ I)|].
      split; auto. split; auto. split; [now apply covers_is_x|]. split.
      + intros ip E. destruct (Cip _ E) as (_ & C). destruct ck; [now apply covers_is_x|auto].
      + intros S i e Hi. pose proof (bi_leak _ _ _ I S _ Hi) as Hr. split; [|exact Hr]. intros ->.
        destruct Hr as (t & Ht & Et). cbn [fst snd] in Et. unfold trs in Ht. destruct Ht as [<-|[<-|Ht]]; [congruence|auto|].
        destruct (b_ip s) as [ip|] eqn:E; [|destruct Ht]. destruct Ht as [<-|[]]. destruct ck; [|eauto].
        destruct (Hck eq_refl) as (ip' & E' & _ & _ & Q). assert (ip' = ip) by congruence. subst ip'.
        exfalso. rewrite refs_at, Q, Eo in Et. discriminate.
    - set (e := (Z.to_N (p_off old), Z.to_N (p_size old))).
      assert (R : refs (b_cur s) b = Some e).
      { rewrite refs_at, Eo. destruct (Z.ltb_spec 0 (p_size old)); [reflexivity|lia]. }
      assert (E1 : p_off old = Z.of_N (fst e)) by (unfold e; cbn [fst]; lia).
      assert (E2 : p_size old = Z.of_N (snd e)) by (unfold e; cbn [snd]; lia).
      assert (Hin : In (b, e) A) by auto.
      pose proof (owned_good _ _ _ _ (bi_ba _ _ _ I) Hin) as (G1 & G2 & G3 & G4).
      destruct (drop_old sm A s b e old ck I R E1 E2 Hck) as (x & y & X1 & X2 & X3 & X4).
      destruct y.
      + exists x, true, A, (b_ba s). split; auto. split; auto. cbn [negb andb]. split; auto.
        split; [exact (bi_ba _ _ _ I)|]. split; auto. split; auto. split; [now apply covers_is_x|]. split.
        * intros ip E. destruct (Cip _ E) as (_ & C). destruct ck; [now apply covers_is_x|auto].
        * intros S i f Hi. pose proof (bi_leak _ _ _ I S _ Hi) as Hr. split; [|exact Hr]. intros ->.
          specialize (X3 S eq_refl). destruct Hr as (t & Ht & Et). cbn [fst snd] in Et. unfold trs in Ht.
          destruct Ht as [<-|[<-|Ht]]; [assert (f = e) by congruence; subst; auto|auto|].
          destruct (b_ip s) as [ip|] eqn:E; [|destruct Ht]. destruct Ht as [<-|[]]. destruct ck; [|eauto].
          destruct (Hck eq_refl) as (ip' & E' & _ & _ & Q). assert (ip' = ip) by congruence. subst ip'.
          assert (f = e). { rewrite refs_at, Q, <- refs_at in Et. congruence. } subst. auto.
      + destruct (owned_free s A b e (bi_ba _ _ _ I) Hin) as (A1 & a1 & F1 & F2 & F3 & F4 & F5).
        exists x, false, A1, a1. split; auto. split; auto. cbn [negb andb].
        destruct (Z.eqb_spec (p_off old) diskoff_unused) as [C|_]; [unfold diskoff_unused in C; lia|]. cbn [negb].
        unfold ext_end, LIM in G4. rewrite E1, E2, !u64_of_N by lia. split; auto. split; auto. split; auto.
        destruct (X4 eq_refl) as (X5 & X6).
        assert (Nb : ~ In (b, e) A1). { intros Hc. apply F5 in Hc. revert Hc. apply disj_same; auto. }
        split; [eapply covers_drop; eauto; apply (bi_ba _ _ _ I)|].
        split; [intros i f Hi Hf; apply F4; auto; intros Q; congruence|]. split.
        * intros ip E. destruct (Cip _ E) as (_ & C). destruct ck.
          -- intros i f Hi Hf. apply F4; auto. intros Q. congruence.
          -- eapply covers_drop; eauto; apply (bi_ba _ _ _ I).
        * intros S i f Hi. pose proof (bi_leak _ _ _ I S _ (F3 _ Hi)) as Hr. split; [|exact Hr]. intros ->.
          destruct Hr as (t & Ht & Et). cbn [fst snd] in Et. unfold trs in Ht.
          destruct Ht as [<-|[<-|Ht]]; [assert (f = e) by congruence; subst; contradiction|auto|].
          destruct (b_ip s) as [ip|] eqn:E; [|destruct Ht]. destruct Ht as [<-|[]]. destruct ck; [|eauto].
          destruct (Hck eq_refl) as (ip' & E' & _ & _ & Q). assert (ip' = ip) by congruence. subst ip'.
          assert (f = e). { rewrite refs_at, Q, <- refs_at in Et. congruence. } subst. contradiction. }
  destruct X as (x & cannot & A1 & a1 & X1 & X2 & X3 & X4 & X5 & X6 & X7 & X8 & X9). rewrite X1, X2, X3.
  (* the new one *)
  destruct (limit_mono s A A1 a1 L (bi_ba _ _ _ I) X4 X5 HL) as (L' & EL & LL).
  destruct (alloc_ok 8192 4096 ltac:(lia) eq_refl ltac:(lia) ltac:(lia) a1 (map snd A1) (Z.to_N size) L' X4 ltac:(lia) EL ltac:(lia))
    as (a2 & off & E1 & E2 & _).
  destruct (Z.ltb_spec 0 size) as [_|]; [|lia].
  assert (Hsz : to_u64 size = Z.to_N size) by (apply u64_small; unfold LIM in *; lia).
  rewrite Hsz, E1. set (e := (off, Z.to_N size)) in *.
  assert (Ge : (0 < snd e)%N /\ (ext_end e <= LIM)%N).
  { pose proof (ai_good _ _ _ _ E2) as G. inversion G as [|? ? (Q1 & Q2 & Q3 & Q4) _]; subst. auto. }
  destruct Ge as (Ge1 & Ge2). assert (Hoff : (off < 2 ^ 63)%N) by (unfold ext_end, LIM, e in *; cbn [fst snd] in *; lia).
  rewrite i64_of_N by auto.
  assert (Np : mkP (Z.of_N off) size = new_pair e) by (unfold new_pair, e; cbn [fst snd]; rewrite Z2N.id by lia; reflexivity).
  rewrite Np.
  destruct (t_set_ok (b_cur s) b (new_pair e) ltac:(lia)) as (cur' & C1 & C2 & C3 & C4 & C5). rewrite C1.
  assert (Pc : put_at b (new_pair e) (b_cur s) cur') by (repeat split; auto).
  assert (Pip : exists ip', (if ck then do ip <- b_ip s; do ip' <- t_set ip (Z.of_nat b) (new_pair e); Some (Some ip')
    else Some (b_ip s)) = Some ip' /\ (if ck then exists ip ip1, b_ip s = Some ip /\ ip' = Some ip1 /\ put_at b (new_pair e) ip ip1
      else ip' = b_ip s)).
  { destruct ck; [|eexists; split; reflexivity]. destruct (Hck eq_refl) as (ip & Eip & _ & Hl & _). rewrite Eip.
    assert (Wip : swf ip) by (apply (bi_wf _ _ _ I); unfold trs; rewrite Eip; cbn; auto).
    pose proof (swf_len _ Wip).
    destruct (t_set_ok ip b (new_pair e) ltac:(lia)) as (ip1 & I1 & I2 & I3 & I4 & I5). rewrite I1.
    eexists; split; [reflexivity|]. exists ip, ip1. repeat split; auto. }
  destruct Pip as (ip' & -> & Pip). eexists _, off, A1. split; [reflexivity|]. fold e.
  assert (Cin : forall t, covers A1 t -> covers ((b, e) :: A1) t) by (intros t C; eapply covers_incl; [|exact C]; cbn; auto).
  (* the fresh extent is in no old translation *)
  assert (Fresh : forall t f i, covers A1 t -> refs t i = Some f -> f <> e).
  { intros t f i C Hf ->. apply C in Hf. pose proof (ai_disj _ _ _ _ E2) as (Dj & _). rewrite Forall_forall in Dj.
    assert (disj (off, Z.to_N size) e) by (apply Dj, in_map_iff; exists (i, e); auto).
    revert H. apply disj_same; auto. }
  constructor; cbn [b_cur b_ip b_cp b_skip b_ba h_dirty ch_dirty]; auto.
  - constructor; unfold trs; cbn [b_cur b_ip b_cp b_skip b_ba h_dirty ch_dirty].
    + exact E2.
    + intros t [<-|[<-|Ht]].
      * split; [eapply put_swf; eauto|eapply put_covers; eauto].
      * split; [apply (bi_wf _ _ _ I); cbn; auto|auto].
      * destruct ck.
        -- destruct Pip as (ip & ip1 & P1 & -> & P3). destruct Ht as [<-|[]].
           destruct (Hck eq_refl) as (ip0 & Eip & _ & Hl & Q). assert (ip0 = ip) by congruence. subst ip0.
           assert (Wip : swf ip) by (apply (bi_wf _ _ _ I); unfold trs; rewrite Eip; cbn; auto).
           split; [eapply put_swf; eauto; rewrite Q; exact Eo|eapply put_covers; eauto; exact (X8 _ Eip)].
        -- subst ip'. destruct (b_ip s) as [ip|] eqn:Eip; [|destruct Ht]. destruct Ht as [<-|[]].
           split; [apply (bi_wf _ _ _ I); unfold trs; rewrite Eip; cbn; auto|apply Cin, X8; auto].
    + rewrite C5. destruct (Nat.eqb_spec 1 b); [lia|]. apply (bi_cur1 _ _ _ I).
    + apply (bi_len_cp _ _ _ I).
    + intros t ->. destruct ck.
      * destruct Pip as (ip & ip1 & P1 & P2 & (P3 & P4 & P5 & P6)). injection P2 as <-. rewrite P5. unfold snub. rewrite P3.
        now apply (bi_len_ip _ _ _ I).
      * now apply (bi_len_ip _ _ _ I).
    + intros t -> Sk. destruct ck.
      * exfalso. destruct (Hck eq_refl) as (ip0 & _ & Sk' & _). congruence.
      * now apply (bi_skip _ _ _ I).
    + intros t -> Sk i f Hf1 Hf2. rewrite (put_refs _ _ _ _ Pc Ge1) in Hf2. destruct (Nat.eqb_spec i b) as [->|Hi].
      * exfalso. injection Hf2 as <-. eapply Fresh; [exact X6|exact Hf1|reflexivity].
      * destruct ck.
        -- destruct Pip as (ip & ip1 & P1 & P2 & P3). injection P2 as <-. rewrite (put_refs _ _ _ _ P3 Ge1).
           destruct (Nat.eqb_spec i b); [contradiction|]. eapply (bi_E _ _ _ I); eauto.
        -- eapply (bi_E _ _ _ I); eauto.
    + intros S t [<-|[<-|Ht]].
      * rewrite C2. apply (bi_sm _ _ _ I S). cbn. auto.
      * apply (bi_sm _ _ _ I S). cbn. auto.
      * destruct ck.
        -- destruct Pip as (ip & ip1 & P1 & -> & (P3 & _)). destruct Ht as [<-|[]]. rewrite P3.
           apply (bi_sm _ _ _ I S). unfold trs. rewrite P1. cbn. auto.
        -- subst ip'. destruct (b_ip s) as [ip|] eqn:Eip; [|destruct Ht]. destruct Ht as [<-|[]].
           apply (bi_sm _ _ _ I S). unfold trs. rewrite Eip. cbn. auto.
    + intros S (i, f) [E|Hi].
      * injection E as <- <-. exists cur'. split; [cbn; auto|]. cbn [fst snd]. rewrite (put_refs _ _ _ _ Pc Ge1), Nat.eqb_refl. auto.
      * destruct (X9 S _ _ Hi) as (Y1 & (t & Ht & Et)). cbn [fst snd] in Et. unfold refd, trs.
        cbn [b_cur b_ip b_cp b_skip b_ba h_dirty ch_dirty fst snd].
        destruct (Nat.eq_dec i b) as [->|Nb].
        -- destruct (Y1 eq_refl) as [Y|(-> & ip & Eip & Y)]; [exists (b_cp s); cbn; auto|].
           exists ip. subst ip'. rewrite Eip. cbn. auto.
        -- unfold trs in Ht. destruct Ht as [<-|[<-|Ht]].
           ++ exists cur'. split; [cbn; auto|]. rewrite (put_refs _ _ _ _ Pc Ge1). destruct (Nat.eqb_spec i b); [contradiction|auto].
           ++ exists (b_cp s). cbn. auto.
           ++ destruct (b_ip s) as [ip|] eqn:Eip; [|destruct Ht]. destruct Ht as [<-|[]]. destruct ck.
              ** destruct Pip as (ip2 & ip1 & P1 & -> & P3). assert (ip2 = ip) by congruence. subst ip2.
                 exists ip1. split; [cbn; auto|]. rewrite (put_refs _ _ _ _ P3 Ge1). destruct (Nat.eqb_spec i b); [contradiction|auto].
              ** subst ip'. exists ip. cbn. auto.
  - intros []. constructor; cbn [b_cur b_ip b_cp b_skip b_ba h_dirty ch_dirty].
    + intros -> Hd. destruct ck; [|discriminate]. destruct Pip as (ip & ip1 & _ & P2 & _). discriminate.
    + intros t -> Hd. destruct ck; [discriminate|]. auto.
    + intros t -> Hd i Hi. destruct ck; [|discriminate]. destruct Pip as (ip & ip1 & P1 & P2 & P3). injection P2 as <-.
      rewrite (put_refs _ _ _ _ P3 Ge1), (put_refs _ _ _ _ Pc Ge1). destruct (Nat.eqb_spec i b); auto. apply di_cur0; auto.
Qed.

(** * Freeing a block number *)
Definition cut_at (b : nat) (t t' : trans) : Prop :=
  swf t' /\ t_snub t' = t_snub t /\ length (t_arr t') = length (t_arr t) /\ ent t' b = Some (mkP (t_head t) size_is_free) /\ forall i, i <> b -> ent t' i = ent t i.
Lemma cut_refs b t t' : cut_at b t t' -> forall i, refs t' i = if (i =? b)%nat then None else refs t i.
Proof.
  intros (_ & _ & _ & H1 & H2) i. rewrite !refs_at. destruct (Nat.eqb_spec i b) as [->|Hi].
  - rewrite H1. reflexivity.
  - now rewrite H2.
Qed.
Lemma free_in_cut t n q : swf t -> (3 <= n < snub t)%nat -> ent t n = Some q -> ~ is_free q ->
  exists t', free_in t (Z.of_nat n) = Some t' /\ cut_at n t t'.
Proof.
  intros W Hn Hq Hf. destruct (free_in_ok t n q W Hn Hq Hf) as (t' & E1 & E2 & E3 & E4 & E5). exists t'. split; auto.
  split; auto. split; auto. split; auto. split.
  - rewrite E5, Nat.eqb_refl. auto.
  - intros i Hi. rewrite E5. destruct (Nat.eqb_spec i n); [contradiction|auto].
Qed.

Record free_post (sm : Prop) (s : btab) (A : owned) (b : nat) (ck : bool) (s' : btab) (A1 : owned) : Prop := {
  fp_inv : bt_inv sm A1 s';
  fp_dirty : dirty_inv s -> dirty_inv s';
  fp_incl : forall x, In x A1 -> In x A;
  fp_cur : cut_at b (b_cur s) (b_cur s');
  fp_ip : if ck then exists ip ip', b_ip s = Some ip /\ b_ip s' = Some ip' /\ cut_at b ip ip' else b_ip s' = b_ip s;
  fp_cp_eq : b_cp s' = b_cp s;
  fp_skip : b_skip s' = b_skip s;
  fp_h : h_dirty s' = (if ck then h_dirty s else true);
  fp_ch : ch_dirty s' = (if ck then true else ch_dirty s) }.

Theorem free_blocknum_ok sm A s b ck old :
  bt_inv sm A s -> (3 <= b < snub (b_cur s))%nat -> ent (b_cur s) b = Some old -> ~ is_free old ->
  (ck = true -> ck_ok s b) ->
  exists s' A1, free_blocknum s (Z.of_nat b) ck = Some s' /\ free_post sm s A b ck s' A1.
Proof.
  intros I Hb Eo Nf Hck. unfold free_blocknum.
  pose proof (bi_wf _ _ _ I) as BW.
  assert (Wc : swf (b_cur s)) by (apply BW; cbn; auto).
  assert (Wp : swf (b_cp s)) by (apply BW; cbn; auto).
  assert (Ccp : covers A (b_cp s)) by (apply BW; cbn; auto).
  assert (Ccu : covers A (b_cur s)) by (apply BW; cbn; auto).
  assert (Cip : forall ip, b_ip s = Some ip -> swf ip /\ covers A ip).
  { intros ip E. apply BW. unfold trs. rewrite E. cbn. auto. }
  rewrite get_nat. unfold ent in Eo. rewrite Eo. fold (ent (b_cur s) b) in Eo.
  destruct (free_in_cut (b_cur s) b old Wc Hb Eo Nf) as (cur' & -> & Cc).
  assert (X : exists ip', (if ck then do ip <- b_ip s; do ip' <- free_in ip (Z.of_nat b); Some (Some ip') else Some (b_ip s)) = Some ip'
    /\ (if ck then exists ip ip1, b_ip s = Some ip /\ ip' = Some ip1 /\ cut_at b ip ip1 else ip' = b_ip s)).
  { destruct ck; [|eauto]. destruct (Hck eq_refl) as (ip & Eip & _ & Hl & Q). rewrite Eip. destruct (Cip _ Eip) as (Wi & _).
    destruct (free_in_cut ip b old Wi ltac:(lia) ltac:(congruence) Nf) as (ip1 & -> & Ci). eexists; split; [reflexivity|]. eauto. }
  destruct X as (ip' & -> & Pip).
  assert (Wip' : forall t, ip' = Some t -> swf t).
  { intros t ->. destruct ck; [destruct Pip as (ip & ip1 & P1 & P2 & (P3 & _)); injection P2 as ->; auto|].
    apply Cip. auto. }
  (* the extent *)
  assert (X : exists A1 a1,
    (if 0 <? p_size old then
       do x <- prevents ip' (Z.of_nat b) old;
       do cannot_free <- if x then Some true else prevents (Some (b_cp s)) (Z.of_nat b) old;
       if cannot_free then Some (b_ba s) else ba_free (b_ba s) (to_u64 (p_off old)) (to_u64 (p_size old))
     else Some (b_ba s)) = Some a1 /\
    ainv 8192%N 4096%N a1 (map snd A1) /\ (forall x, In x A1 -> In x A) /\
    covers A1 (b_cp s) /\ covers A1 cur' /\ (forall t, ip' = Some t -> covers A1 t) /\
    (sm -> forall x, In x A1 -> refs (b_cp s) (fst x) = Some (snd x) \/ refs cur' (fst x) = Some (snd x) \/
        exists t, ip' = Some t /\ refs t (fst x) = Some (snd x))).
  { assert (Ccur' : covers A cur').
    { intros i e. rewrite (cut_refs _ _ _ Cc). destruct (Nat.eqb_spec i b); [discriminate|auto]. }
    assert (Cip' : forall t, ip' = Some t -> covers A t).
    { intros t ->. destruct ck; [|apply Cip; auto]. destruct Pip as (ip & ip1 & P1 & P2 & P3). injection P2 as ->.
      intros i e. rewrite (cut_refs _ _ _ P3). destruct (Nat.eqb_spec i b); [discriminate|]. apply Cip. auto. }
    (* what referred to an extent at another block number still does *)
    assert (Keep : forall i f, In (i, f) A -> sm -> (i = b -> refs (b_cur s) b <> Some f) ->
       refs (b_cp s) i = Some f \/ refs cur' i = Some f \/ exists t, ip' = Some t /\ refs t i = Some f).
    { intros i f Hi S Hne. destruct (bi_leak _ _ _ I S _ Hi) as (t & Ht & Et). cbn [fst snd] in Et. unfold trs in Ht.
      destruct Ht as [<-|[<-|Ht]]; [|auto|].
      - right. left. rewrite (cut_refs _ _ _ Cc). destruct (Nat.eqb_spec i b) as [->|]; [exfalso; apply Hne; auto|auto].
      - destruct (b_ip s) as [ip|] eqn:Eip; [|destruct Ht]. destruct Ht as [<-|[]]. right. right. destruct ck; [|eauto].
        destruct Pip as (ip2 & ip1 & P1 & -> & P3). assert (ip2 = ip) by congruence. subst ip2. exists ip1. split; auto.
        rewrite (cut_refs _ _ _ P3). destruct (Nat.eqb_spec i b) as [->|]; [|auto]. exfalso. apply Hne; auto.
        destruct (Hck eq_refl) as (ip0 & E' & _ & _ & Q). assert (ip0 = ip) by congruence. subst ip0.
        rewrite refs_at, <- Q, <- refs_at. auto. }
    pose proof (sw_pair _ Wc _ _ Eo) as [F|[F|F]]; [contradiction| |].
    - subst old. change (0 <? p_size unalloc) with false. cbv iota. exists A, (b_ba s). split; auto.
      split; [exact (bi_ba _ _ _ I)|]. split; auto. split; auto. split; auto. split; auto.
      intros S (i, f) Hi. cbn [fst snd]. apply Keep; auto. intros ->. rewrite refs_at, Eo. discriminate.
    - set (e := (Z.to_N (p_off old), Z.to_N (p_size old))).
      destruct (Z.ltb_spec 0 (p_size old)) as [_|]; [|lia].
      assert (R : refs (b_cur s) b = Some e).
      { rewrite refs_at, Eo. destruct (Z.ltb_spec 0 (p_size old)); [reflexivity|lia]. }
      assert (E1 : p_off old = Z.of_N (fst e)) by (unfold e; cbn [fst]; lia).
      assert (E2 : p_size old = Z.of_N (snd e)) by (unfold e; cbn [snd]; lia).
      assert (Hin : In (b, e) A) by auto.
      pose proof (owned_good _ _ _ _ (bi_ba _ _ _ I) Hin) as (G1 & G2 & G3 & G4).
      assert (Y : exists x y, prevents ip' (Z.of_nat b) old = Some x /\
        (if x then Some true else prevents (Some (b_cp s)) (Z.of_nat b) old) = Some y /\
        (sm -> y = true -> refs (b_cp s) b = Some e \/ exists t, ip' = Some t /\ refs t b = Some e) /\
        (y = false -> (forall f, refs (b_cp s) b = Some f -> fst f <> fst e) /\
          (forall t, ip' = Some t -> forall f, refs t b = Some f -> fst f <> fst e))).
      { destruct ck.
        - destruct (drop_old sm A s b e old true I R E1 E2 Hck) as (x & y & X1 & X2 & X3 & X4). injection X1 as <-.
          destruct Pip as (ip & ip1 & P1 & -> & P3). destruct (prevents_ok ip1 b old ltac:(apply P3)) as (x & Ex & Xx).
          exists x. destruct x.
          + exists true. split; auto. split; auto. split; [|discriminate]. intros S _. exfalso.
            destruct Xx as (Xx & _). destruct (Xx eq_refl) as (_ & p & Ep & Eq).
            destruct P3 as (_ & _ & _ & P3 & _). assert (p = mkP (t_head ip) size_is_free) by congruence. subst p. cbn [p_off] in Eq.
            destruct (Cip _ P1) as (Wi & _). destruct (sw_list _ Wi) as (l & Ch & _ & Hl).
            assert (Sn : t_snub ip <= 8192) by (apply (bi_sm _ _ _ I S); unfold trs; rewrite P1; cbn; auto).
            destruct l as [|a l]; cbn in Ch; [unfold freelist_null in Ch; lia|]. destruct Ch as (Ch & _).
            assert (Ha : (3 <= a < snub ip)%nat) by (apply Hl; cbn; auto). pose proof (snub_z _ Wi). lia.
          + exists y. split; auto. split; auto. split.
            * intros S Ey. destruct (X3 S Ey) as [|(C & _)]; [auto|discriminate].
            * intros Ey. destruct (X4 Ey) as (X5 & _). split; auto. intros t Et. injection Et as <-.
              intros f. rewrite (cut_refs _ _ _ P3), Nat.eqb_refl. discriminate.
        - subst ip'. destruct (drop_old sm A s b e old false I R E1 E2 Hck) as (x & y & X1 & X2 & X3 & X4). exists x, y.
          split; auto. split; auto. split; [|intros Ey; destruct (X4 Ey) as (Xa & Xb); split; [exact Xa|exact (Xb eq_refl)]].
          intros S Ey. destruct (X3 S Ey) as [|(_ & C)]; auto. }
      destruct Y as (x & y & -> & -> & Y3 & Y4). destruct y.
      + exists A, (b_ba s). split; auto. split; [exact (bi_ba _ _ _ I)|]. split; auto. split; auto. split; auto. split; auto.
        intros S (i, f) Hi. cbn [fst snd]. destruct (Nat.eq_dec i b) as [->|Ni]; [|apply Keep; auto; congruence].
        assert (Dec : f = e \/ f <> e). { destruct f as [f1 f2], e as [e1 e2]. destruct (N.eq_dec f1 e1), (N.eq_dec f2 e2); subst; auto; right; congruence. }
        destruct Dec as [->|Nf']; [|apply Keep; auto; intros _ C; congruence].
        destruct (Y3 S eq_refl) as [|(t & T1 & T2)]; eauto.
      + destruct (owned_free s A b e (bi_ba _ _ _ I) Hin) as (A1 & a1 & F1 & F2 & F3 & F4 & F5).
        exists A1, a1. unfold ext_end, LIM in G4. rewrite E1, E2, !u64_of_N by lia. split; auto. split; auto. split; auto.
        destruct (Y4 eq_refl) as (Y5 & Y6).
        assert (Nb : ~ In (b, e) A1). { intros Hc. apply F5 in Hc. revert Hc. apply disj_same; auto. }
        split; [eapply covers_drop; eauto; apply (bi_ba _ _ _ I)|].
        split; [eapply covers_drop; eauto; [apply (bi_ba _ _ _ I)|]; intros f; rewrite (cut_refs _ _ _ Cc), Nat.eqb_refl; discriminate|].
        split; [intros t Et; eapply covers_drop; eauto; apply (bi_ba _ _ _ I)|].
        intros S (i, f) Hi. cbn [fst snd]. apply Keep; auto. intros -> C. assert (f = e) by congruence. subst. contradiction. }
  destruct X as (A1 & a1 & -> & X2 & X3 & X4 & X5 & X6 & X7).
  assert (D : exists s1, set_dirty (mkB cur' ip' (b_cp s) (b_skip s) a1 (h_dirty s) (ch_dirty s)) ck = Some s1 /\
    b_cur s1 = cur' /\ b_ip s1 = ip' /\ b_cp s1 = b_cp s /\
    b_skip s1 = b_skip s /\ b_ba s1 = a1 /\ h_dirty s1 = (if ck then h_dirty s else true) /\
    ch_dirty s1 = (if ck then true else ch_dirty s)).
  { unfold set_dirty. cbn [b_cur b_ip b_cp b_skip b_ba h_dirty ch_dirty]. destruct ck; [|eexists; split; [reflexivity|]; repeat split].
    destruct Pip as (ip & ip1 & P1 & -> & _). cbn [is_some]. eexists; split; [reflexivity|]. repeat split. }
  destruct D as (s1 & -> & D1 & D2 & D3 & D4 & D5 & D6 & D7). exists s1, A1. split; auto.
  constructor; rewrite ?D1, ?D2, ?D3, ?D4, ?D5, ?D6, ?D7; auto.
  - constructor; unfold trs, binv, refd; rewrite ?D1, ?D2, ?D3, ?D4, ?D5, ?D6, ?D7.
    + exact X2.
    + intros t [<-|[<-|Ht]]; [split; [apply Cc|auto]|auto|].
      destruct ip' as [t'|]; [|destruct Ht]. destruct Ht as [<-|[]]. auto.
    + destruct Cc as (_ & _ & _ & _ & Cc). rewrite Cc by lia. apply (bi_cur1 _ _ _ I).
    + apply (bi_len_cp _ _ _ I).
    + intros t ->. destruct ck; [|now apply (bi_len_ip _ _ _ I)].
      destruct Pip as (ip & ip1 & P1 & P2 & (_ & P3 & P4 & _)). injection P2 as ->. rewrite P4. unfold snub. rewrite P3.
      now apply (bi_len_ip _ _ _ I).
    + intros t -> Sk. destruct ck; [|now apply (bi_skip _ _ _ I)].
      exfalso. destruct (Hck eq_refl) as (ip0 & _ & Sk' & _). congruence.
    + intros t -> Sk i f Hf1. rewrite (cut_refs _ _ _ Cc). destruct (Nat.eqb_spec i b) as [->|Hi]; [discriminate|].
      intros Hf2. destruct ck; [|eapply (bi_E _ _ _ I); eauto].
      destruct Pip as (ip & ip1 & P1 & P2 & P3). injection P2 as ->. rewrite (cut_refs _ _ _ P3).
      destruct (Nat.eqb_spec i b); [contradiction|]. eapply (bi_E _ _ _ I); eauto.
    + intros S t [<-|[<-|Ht]].
      * destruct Cc as (_ & Cc & _). rewrite Cc. apply (bi_sm _ _ _ I S). cbn. auto.
      * apply (bi_sm _ _ _ I S). cbn. auto.
      * destruct ck.
        -- destruct Pip as (ip & ip1 & P1 & -> & (_ & P3 & _)). destruct Ht as [<-|[]]. rewrite P3.
           apply (bi_sm _ _ _ I S). unfold trs. rewrite P1. cbn. auto.
        -- subst ip'. destruct (b_ip s) as [ip|] eqn:Eip; [|destruct Ht]. destruct Ht as [<-|[]].
           apply (bi_sm _ _ _ I S). unfold trs. rewrite Eip. cbn. auto.
    + intros S x Hx. destruct (X7 S _ Hx) as [H|[H|(t & -> & H)]]; [exists (b_cp s)|exists cur'|exists t]; unfold trs; rewrite D1, D2, D3; cbn; auto.
  - intros []. constructor; rewrite ?D1, ?D2, ?D3, ?D4, ?D5, ?D6, ?D7.
    + intros -> Hd. destruct ck; [|discriminate]. destruct Pip as (ip & ip1 & _ & P2 & _). discriminate.
    + intros t -> Hd. destruct ck; [discriminate|]. auto.
    + intros t -> Hd i Hi. destruct ck; [|discriminate]. destruct Pip as (ip & ip1 & P1 & P2 & P3). injection P2 as ->.
      rewrite (cut_refs _ _ _ P3), (cut_refs _ _ _ Cc). destruct (Nat.eqb_spec i b); auto. apply di_cur0; auto.
Qed.

Lemma leak3 sm A s : bt_inv sm A s -> sm -> forall x, In x A ->
  refs (b_cur s) (fst x) = Some (snd x) \/ refs (b_cp s) (fst x) = Some (snd x) \/
  exists t, b_ip s = Some t /\ refs t (fst x) = Some (snd x).
Proof.
  intros I S x Hx. destruct (bi_leak _ _ _ I S x Hx) as (t & Ht & Et). unfold trs in Ht.
  destruct (b_ip s) as [u|]; cbn [In] in Ht; intuition (subst; eauto).
Qed.

(** * Block numbers *)
Theorem alloc_blocknum_inv sm A s :
  bt_inv sm A s -> (sm -> t_head (b_cur s) <> freelist_null \/ t_snub (b_cur s) < 8192) ->
  exists s' n, alloc_blocknum s = Some (s', Z.of_nat n) /\ bt_inv sm A s' /\ (dirty_inv s -> dirty_inv s') /\
    (3 <= n < snub (b_cur s'))%nat /\ (forall q, ent (b_cur s) n = Some q -> is_free q) /\
    ent (b_cur s') n = Some unalloc /\
    (forall i p, i <> n -> ~ is_free p -> ent (b_cur s') i = Some p <-> ent (b_cur s) i = Some p) /\
    (forall i, refs (b_cur s') i = refs (b_cur s) i) /\
    b_ip s' = b_ip s /\ b_cp s' = b_cp s /\ b_skip s' = b_skip s /\ b_ba s' = b_ba s /\
    h_dirty s' = true /\ ch_dirty s' = ch_dirty s.
Proof.
  intros I Hsm. assert (Wc : swf (b_cur s)) by (apply (bi_wf _ _ _ I); cbn; auto).
  destruct (alloc_blocknum_ok s Wc) as (s' & n & E & W & Hn & Fr & En & Eo & Sh & Sn & E1 & E2 & E3 & E4 & E5 & E6).
  assert (R : forall i, refs (b_cur s') i = refs (b_cur s) i).
  { intros i. destruct (Nat.eq_dec i n) as [->|Hi].
    - rewrite !refs_at, En. cbn [unalloc p_size]. destruct (ent (b_cur s) n) as [q|] eqn:Eq; auto.
      specialize (Fr _ eq_refl). unfold is_free, size_is_free in Fr. rewrite Fr. reflexivity.
    - unfold refs. specialize (Eo i). destruct (ent (b_cur s') i) as [p|] eqn:Ep.
      + destruct (Z.eq_dec (p_size p) size_is_free) as [F|F].
        * rewrite F. cbn. destruct (ent (b_cur s) i) as [q|] eqn:Eq; auto. destruct (Z.ltb_spec 0 (p_size q)) as [G|]; auto.
          destruct (Eo q Hi) as (_ & Eo'); [unfold is_free, size_is_free; lia|]. specialize (Eo' eq_refl). assert (p = q) by congruence. subst. unfold size_is_free in F. lia.
        * destruct (Eo p Hi F) as (Eo' & _). rewrite Eo' by auto. reflexivity.
      + destruct (ent (b_cur s) i) as [q|] eqn:Eq; auto. destruct (Z.ltb_spec 0 (p_size q)) as [G|]; auto.
        destruct (Eo q Hi) as (_ & Eo'); [unfold is_free, size_is_free; lia|]. specialize (Eo' eq_refl). discriminate. }
  exists s', n. split; auto. split; [|split; [|repeat split; auto; try lia; try (now apply Eo)]].
  - destruct I. constructor; unfold trs, binv, refd in *; rewrite ?E1, ?E2, ?E3, ?E4, ?E5, ?E6; auto.
    + intros t [<-|Ht]; [|apply bi_wf0; cbn; auto]. split; auto. intros i e. rewrite R. apply bi_wf0. cbn. auto.
    + apply Eo; auto; [lia|]. unfold is_free, unalloc, size_is_free. cbn. lia.
    + intros t Et Sk i e. rewrite R. eauto.
    + intros S t [<-|Ht]; [|apply bi_sm0; cbn; auto]. destruct (Hsm S) as [H|H]; [rewrite Sh by auto; apply bi_sm0; cbn; auto|lia].
    + intros S x Hx. destruct (bi_leak0 S x Hx) as (t & Ht & Et). unfold refd, trs. rewrite E1, E2.
      destruct Ht as [<-|Ht]; [exists (b_cur s'); rewrite R; cbn; auto|exists t; cbn; auto].
  - intros []. constructor; unfold same_refs in *; rewrite ?E1, ?E2, ?E3, ?E5, ?E6; auto; discriminate.
Qed.

(** * Checkpoints *)
Theorem start_ok sm A s : bt_inv sm A s -> b_ip s = None ->
  exists s' ip, start_ckpt s = Some s' /\ bt_inv sm A s' /\ (dirty_inv s -> dirty_inv s') /\
    b_ip s' = Some ip /\ (forall i, refs ip i = refs (b_cur s) i) /\ (forall i, refs (b_cur s') i = refs (b_cur s) i) /\
    (forall i, i <> 1%nat -> (i < snub ip)%nat -> ent ip i = ent (b_cur s') i) /\ snub ip = snub (b_cur s') /\
    (forall i p, ~ is_free p -> ent (b_cur s') i = Some p <-> ent (b_cur s) i = Some p) /\
    ent ip 1 = Some unalloc /\
    b_cp s' = b_cp s /\ b_skip s' = false /\ b_ba s' = b_ba s /\ h_dirty s' = false /\ ch_dirty s' = h_dirty s.
Proof.
  intros I Hn. assert (Wc : swf (b_cur s)) by (apply (bi_wf _ _ _ I); cbn; auto).
  destruct (optimize_ok _ Wc) as (Wo & So & Ro). pose proof (refs_iff _ _ Ro) as Rr.
  destruct (copy_ok _ Wo) as (ip & Ec & Wi & Si & Li & Ei).
  unfold start_ckpt. rewrite Hn. cbn [is_some negb]. rewrite Ec. eexists _, ip. split; [reflexivity|].
  assert (U1 : ent (optimize (b_cur s)) 1 = Some unalloc).
  { apply Ro; [unfold is_free, unalloc, size_is_free; cbn; lia|]. apply (bi_cur1 _ _ _ I). }
  assert (Ri : forall i, refs ip i = refs (b_cur s) i).
  { intros i. rewrite <- Rr. rewrite !refs_at, Ei. destruct (Nat.eqb_spec i 1) as [->|Hi]; [rewrite U1; reflexivity|].
    destruct (Nat.ltb_spec i (snub (optimize (b_cur s)))) as [|G]; auto.
    destruct (ent (optimize (b_cur s)) i) as [p|] eqn:Ep; auto.
    pose proof (sw_high _ Wo _ _ Ep G) as F. unfold is_free, size_is_free in F. rewrite F. reflexivity. }
  assert (Sz : snub ip = snub (optimize (b_cur s))) by (unfold snub; now rewrite Si).
  cbn [b_cur b_ip b_cp b_skip b_ba h_dirty ch_dirty].
  split; [|split; [|repeat split; auto; try (now apply Ro)]].
  - pose proof (leak3 _ _ _ I) as Lk. destruct I. unfold trs, refd in *. rewrite Hn in *.
    constructor; unfold trs, binv, refd in *; cbn [b_cur b_ip b_cp b_skip b_ba h_dirty ch_dirty]; auto.
    + intros t [<-|[<-|[<-|[]]]].
      * split; auto. intros i e. rewrite Rr. apply bi_wf0. cbn. auto.
      * apply bi_wf0. cbn. auto.
      * split; auto. intros i e. rewrite Ri. apply bi_wf0. cbn. auto.
    + intros t E. injection E as <-. congruence.
    + discriminate.
    + intros t E _ i e. injection E as <-. rewrite Ri, Rr. auto.
    + intros S t [<-|[<-|[<-|[]]]].
      * assert (t_snub (b_cur s) <= 8192) by (apply bi_sm0; cbn; auto). lia.
      * apply bi_sm0; cbn; auto.
      * assert (t_snub (b_cur s) <= 8192) by (apply bi_sm0; cbn; auto). lia.
    + intros S x Hx. destruct (Lk S x Hx) as [Et|[Et|(t & Et0 & Et)]]; [| |congruence]; unfold refd, trs; cbn [b_cur b_ip b_cp].
      * exists (optimize (b_cur s)). rewrite Rr. cbn. auto.
      * exists (b_cp s). cbn. auto.
  - intros []. constructor; cbn [b_cur b_ip b_cp b_skip b_ba h_dirty ch_dirty]; try discriminate.
    + intros t E Hd. injection E as <-. split.
      * intros i Hi. rewrite Ri. apply di_idle0; auto.
      * rewrite refs_at, Ei. reflexivity.
    + intros t E _ i Hi. injection E as <-. now rewrite Ri, Rr.
  - intros i H1 H2. rewrite Ei. destruct (Nat.eqb_spec i 1); [contradiction|]. destruct (Nat.ltb_spec i (snub (optimize (b_cur s)))); [auto|lia].
  - rewrite Ei. reflexivity.
Qed.

Theorem skip_ok sm A s : bt_inv sm A s -> dirty_inv s -> ch_dirty s = false ->
  bt_inv sm A (skip_ckpt s) /\ dirty_inv (skip_ckpt s).
Proof.
  intros I D Hc. split.
  - destruct I. constructor; unfold trs, binv, refd, skip_ckpt in *; cbn [b_cur b_ip b_cp b_skip b_ba h_dirty ch_dirty] in *; auto.
    + intros t Et _. now apply (di_ck _ D).
    + discriminate.
  - destruct D. constructor; unfold skip_ckpt; cbn [b_cur b_ip b_cp b_skip b_ba h_dirty ch_dirty]; auto.
Qed.

Theorem alloc_trans_ok sm A s ip L : bt_inv sm A s -> b_ip s = Some ip -> refs ip 1 = None -> b_skip s = false ->
  ba_limit (b_ba s) = Some L -> (L + 4096 + Z.to_N (size_on_disk ip) <= LIM)%N ->
  exists s' ip' off, alloc_trans s = Some s' /\
    let e := (off, Z.to_N (size_on_disk ip)) in
    bt_inv sm ((1%nat, e) :: A) s' /\ (ch_dirty s = true -> dirty_inv s -> dirty_inv s') /\
    b_ip s' = Some ip' /\ put_at 1 (new_pair e) ip ip' /\ b_cur s' = b_cur s /\ b_cp s' = b_cp s /\
    b_skip s' = b_skip s /\ h_dirty s' = h_dirty s /\ ch_dirty s' = ch_dirty s.
Proof.
  intros I Hip R1 Sk HL Hroom. unfold alloc_trans. rewrite Hip.
  assert (Ht : In ip (trs s)) by (unfold trs; rewrite Hip; cbn; auto).
  destruct (bi_wf _ _ _ I _ Ht) as (Wi & Ci). pose proof (swf_len _ Wi) as HLi. pose proof (snub_z _ Wi) as Hz.
  assert (Hs : 0 < size_on_disk ip) by (unfold size_on_disk; lia).
  destruct (alloc_ok 8192 4096 ltac:(lia) eq_refl ltac:(lia) ltac:(lia) (b_ba s) (map snd A) (Z.to_N (size_on_disk ip)) L
     (bi_ba _ _ _ I) ltac:(lia) HL Hroom) as (a2 & off & E1 & E2 & _).
  assert (Hsz : to_u64 (size_on_disk ip) = Z.to_N (size_on_disk ip)) by (apply u64_small; unfold LIM in *; lia).
  rewrite Hsz, E1. set (e := (off, Z.to_N (size_on_disk ip))) in *.
  assert (Ge : (0 < snd e)%N /\ (ext_end e <= LIM)%N).
  { pose proof (ai_good _ _ _ _ E2) as G. inversion G as [|? ? (Q1 & Q2 & Q3 & Q4) _]; subst. auto. }
  destruct Ge as (Ge1 & Ge2). assert (Hoff : (off < 2 ^ 63)%N) by (unfold ext_end, LIM, e in *; cbn [fst snd] in *; lia).
  rewrite i64_of_N by auto.
  assert (Np : mkP (Z.of_N off) (size_on_disk ip) = new_pair e) by (unfold new_pair, e; cbn [fst snd]; rewrite Z2N.id by lia; reflexivity).
  rewrite Np. destruct (t_set_ok ip 1 (new_pair e) ltac:(lia)) as (ip' & C1 & C2 & C3 & C4 & C5).
  change B_TRANS with (Z.of_nat 1). rewrite C1. exists (with_ba (with_ip s (Some ip')) a2), ip', off. split; [reflexivity|].
  assert (Pi : put_at 1 (new_pair e) ip ip') by (repeat split; auto).
  destruct (ent_some ip 1) as (q & Eq); [lia|].
  assert (Nq : ~ is_free q) by (eapply sw_low; eauto).
  cbv zeta. unfold with_ba, with_ip. cbn [b_cur b_ip b_cp b_skip b_ba h_dirty ch_dirty].
  split; [|split; [|repeat split; auto]].
  - assert (Cin : forall t, covers A t -> covers ((1%nat, e) :: A) t) by (intros t C; eapply covers_incl; [|exact C]; cbn; auto).
    assert (Cx : covers_x 1 A ip) by (now apply covers_is_x).
    assert (Wi' : swf ip') by (eapply put_swf; eauto; lia).
    pose proof (leak3 _ _ _ I) as Lk. destruct I. unfold trs, refd in *. rewrite Hip in *.
    constructor; unfold trs, binv, refd in *; cbn [b_cur b_ip b_cp b_skip b_ba h_dirty ch_dirty]; auto.
    + intros t [<-|[<-|[<-|[]]]].
      * split; [apply bi_wf0; cbn; auto|apply Cin, bi_wf0; cbn; auto].
      * split; [apply bi_wf0; cbn; auto|apply Cin, bi_wf0; cbn; auto].
      * split; auto. eapply put_covers; eauto.
    + intros t E. injection E as <-. rewrite C4. unfold snub. rewrite C2. apply bi_len_ip0; auto.
    + intros t E Sk'. congruence.
    + intros t E _ i f H1 H2. injection E as <-. rewrite (put_refs _ _ _ _ Pi Ge1). destruct (Nat.eqb_spec i 1) as [->|Hi].
      * exfalso. rewrite refs_at, bi_cur2 in H2. discriminate.
      * eapply bi_E0; eauto.
    + intros S t [<-|[<-|[<-|[]]]]; [apply bi_sm0; cbn; auto|apply bi_sm0; cbn; auto|].
      rewrite C2. apply bi_sm0; cbn; auto.
    + intros S x [<-|Hx].
      * exists ip'. unfold trs. cbn [b_cur b_ip b_cp fst snd]. split; [cbn; auto|]. rewrite (put_refs _ _ _ _ Pi Ge1). reflexivity.
      * destruct (Lk S x Hx) as [Et|[Et|(t & Et0 & Et)]]; [| |assert (t = ip) by congruence; subst t]; unfold refd, trs; cbn [b_cur b_ip b_cp].
        -- exists (b_cur s). cbn. auto.
        -- exists (b_cp s). cbn. auto.
        -- exists ip'. split; [cbn; auto|]. rewrite (put_refs _ _ _ _ Pi Ge1). destruct (Nat.eqb_spec (fst x) 1) as [E|]; auto.
           rewrite E in Et. congruence.
  - intros Hc []. constructor; cbn [b_cur b_ip b_cp b_skip b_ba h_dirty ch_dirty]; try discriminate.
    + intros t E Hd. congruence.
    + intros t E Hd i Hi. injection E as <-. rewrite (put_refs _ _ _ _ Pi Ge1). destruct (Nat.eqb_spec i 1); [contradiction|].
      apply di_cur0; auto.
Qed.

Lemma end_loop_ok sm A s ip : bt_inv sm A s -> b_ip s = Some ip -> b_skip s = false ->
  forall l i A1 a, (forall k, nth_error l k = ent (b_cp s) (i + k)) -> ainv 8192%N 4096%N a (map snd A1) ->
  (forall x, In x A1 -> In x A) -> (forall j e, (i <= j)%nat -> refs (b_cp s) j = Some e -> In (j, e) A1) ->
  (sm -> exists a', end_loop (Z.of_nat i) l ip (b_cur s) a = Some a') /\
  forall a', end_loop (Z.of_nat i) l ip (b_cur s) a = Some a' -> exists A2, ainv 8192%N 4096%N a' (map snd A2) /\
    (forall x, In x A2 -> In x A1) /\
    (forall x, In x A1 -> refs ip (fst x) = Some (snd x) \/ refs (b_cur s) (fst x) = Some (snd x) -> In x A2) /\
    (sm -> forall j e, In (j, e) A2 -> (i <= j)%nat -> refs (b_cp s) j = Some e -> refs ip j = Some e).
Proof.
  intros I Hip Sk. assert (Ht : In ip (trs s)) by (unfold trs; rewrite Hip; cbn; auto).
  destruct (bi_wf _ _ _ I _ Ht) as (Wi & Ci).
  assert (Wc : swf (b_cur s) /\ covers A (b_cur s)) by (apply (bi_wf _ _ _ I); cbn; auto). destruct Wc as (Wc & Cc).
  assert (Wp : swf (b_cp s)) by (apply (bi_wf _ _ _ I); cbn; auto).
  induction l as [|p l IH]; intros i A1 a Hl Ha Hsub Hin.
  - cbn [end_loop]. split; [eauto|]. intros a' E. injection E as <-. exists A1. split; [exact Ha|]. split; [auto|]. split; [auto|].
    intros S j e _ Hj Hr. exfalso. apply refs_ent in Hr; auto. destruct Hr as (Hr & _).
    specialize (Hl (j - i)%nat). rewrite Nat.add_comm, Nat.sub_add in Hl by auto. rewrite Hr in Hl. destruct (j - i)%nat; discriminate.
  - assert (Hl' : forall k, nth_error l k = ent (b_cp s) (S i + k)).
    { intros k. specialize (Hl (S k)). cbn [nth_error] in Hl. rewrite Hl. f_equal. lia. }
    assert (Ep : ent (b_cp s) i = Some p) by (specialize (Hl 0%nat); cbn [nth_error] in Hl; rewrite Nat.add_0_r in Hl; auto).
    assert (Zi : Z.of_nat i + 1 = Z.of_nat (S i)) by lia.
    cbn [end_loop]. rewrite Zi. destruct (Z.ltb_spec 0 (p_size p)) as [Hp|Hp].
    2:{ destruct (IH (S i) A1 a) as (IH1 & IH2); auto.
        { intros j e Hj. apply Hin. lia. }
        split; auto. intros a' E. destruct (IH2 _ E) as (A2 & H1 & H2 & H3 & H4). exists A2. split; [exact H1|]. split; [auto|]. split; [auto|].
        intros S j e Hj Hij Hr. destruct (Nat.eq_dec j i) as [->|]; [|apply H4; auto; lia].
        exfalso. rewrite refs_at, Ep in Hr. destruct (Z.ltb_spec 0 (p_size p)); [lia|discriminate]. }
    set (e := (Z.to_N (p_off p), Z.to_N (p_size p))).
    assert (Re : refs (b_cp s) i = Some e).
    { rewrite refs_at, Ep. destruct (Z.ltb_spec 0 (p_size p)); [reflexivity|lia]. }
    pose proof (Hin i e (Nat.le_refl _) Re) as He. pose proof (Hsub _ He) as HeA.
    pose proof (owned_good (with_ba s a) A1 i e Ha He) as (G1 & G2 & G3 & G4).
    assert (E1 : p_off p = Z.of_N (fst e)).
    { unfold e; cbn [fst]. pose proof (sw_pair _ Wp _ _ Ep) as [F|[F|F]]; [unfold is_free, size_is_free in F; lia| |lia].
      subst p. cbn in Hp. lia. }
    assert (E2 : p_size p = Z.of_N (snd e)) by (unfold e; cbn [snd]; lia).
    destruct (prevents_ok ip i p Wi) as (x & Ex & _). rewrite Ex. destruct x.
    { destruct (IH (S i) A1 a) as (IH1 & IH2); auto.
      { intros j f Hj. apply Hin. lia. }
      split; auto. intros a' E. destruct (IH2 _ E) as (A2 & H1 & H2 & H3 & H4). exists A2. split; [exact H1|]. split; [auto|]. split; [auto|].
      intros S j f Hj Hij Hr. destruct (Nat.eq_dec j i) as [->|]; [|apply H4; auto; lia].
      assert (f = e) by congruence. subst f. eapply prevents_true; eauto. }
    pose proof (prevents_false ip i e p Wi E1 Ex) as Nip.
    destruct (prevents_ok (b_cur s) i p Wc) as (y & Ey & _). rewrite Ey. destruct y.
    { cbn [negb]. split; [|discriminate]. intros S. exfalso.
      assert (Rc : refs (b_cur s) i = Some e) by (eapply prevents_true; eauto; cbn; auto).
      pose proof (bi_E _ _ _ I _ Hip Sk _ _ Re Rc) as Ri. exact (Nip _ Ri eq_refl). }
    pose proof (prevents_false (b_cur s) i e p Wc E1 Ey) as Ncur. cbn [negb].
    destruct (owned_free (with_ba s a) A1 i e Ha He) as (A1' & a1 & F1 & F2 & F3 & F4 & F5).
    cbn [with_ba b_ba] in F1. unfold ext_end, LIM in G4. rewrite E1, E2, !u64_of_N by lia. rewrite F1.
    destruct (IH (S i) A1' a1) as (IH1 & IH2); auto.
    { intros j f Hj Hr. apply F4; [apply Hin; auto; lia|]. intros C. injection C as -> _. lia. }
    split; auto. intros a' E. destruct (IH2 _ E) as (A2 & H1 & H2 & H3 & H4). exists A2. split; [exact H1|]. split; [auto|]. split.
    + intros x Hx Hr. apply H3; auto. apply F4; auto. intros ->. cbn [fst snd] in Hr.
      destruct Hr as [Hr|Hr]; [apply (Nip _ Hr)|apply (Ncur _ Hr)]; auto.
    + intros S j f Hj Hij Hr. destruct (Nat.eq_dec j i) as [->|]; [|apply H4; auto; lia].
      exfalso. assert (f = e) by congruence. subst f. apply H2 in Hj. apply F5 in Hj. revert Hj. apply disj_same; auto.
Qed.

Theorem end_ok sm A s ip : bt_inv sm A s -> b_ip s = Some ip -> (b_skip s = false -> refs ip 1 <> None) ->
  (sm -> exists s', end_ckpt s = Some s') /\
  forall s', end_ckpt s = Some s' -> exists A', bt_inv sm A' s' /\ (dirty_inv s -> dirty_inv s') /\
    (forall x, In x A' -> In x A) /\
    b_cur s' = b_cur s /\ b_ip s' = None /\ b_cp s' = (if b_skip s then b_cp s else ip) /\
    h_dirty s' = h_dirty s.
Proof.
  intros I Hip H1. unfold end_ckpt.
  destruct (limit_ok 8192 4096 ltac:(lia) eq_refl ltac:(lia) ltac:(lia) (b_ba s) (map snd A) (bi_ba _ _ _ I)) as (L & EL & _).
  rewrite EL, Hip.
  assert (Ht : In ip (trs s)) by (unfold trs; rewrite Hip; cbn; auto).
  destruct (bi_wf _ _ _ I _ Ht) as (Wi & Ci).
  destruct (b_skip s) eqn:Sk.
  - split; [eauto|]. intros s' E. injection E as <-. exists A. cbn [b_cur b_ip b_cp b_skip b_ba h_dirty ch_dirty].
    destruct (bi_skip _ _ _ I _ Hip Sk) as (Sa & S1).
    split; [|split; [|repeat split; auto]].
    + pose proof (leak3 _ _ _ I) as Lk. destruct I. unfold trs, refd in *. rewrite Hip in *.
      constructor; unfold trs, binv, refd in *; cbn [b_cur b_ip b_cp b_skip b_ba h_dirty ch_dirty]; auto; try discriminate.
      * intros t [<-|[<-|[]]]; apply bi_wf0; cbn; auto.
      * intros S t [<-|[<-|[]]]; apply bi_sm0; cbn; auto.
      * intros S x Hx. destruct (Lk S x Hx) as [Et|[Et|(t & Et0 & Et)]]; [| |assert (t = ip) by congruence; subst t]; unfold refd, trs; cbn [b_cur b_ip b_cp].
        -- exists (b_cur s). cbn. auto.
        -- exists (b_cp s). cbn. auto.
        -- exists (b_cp s). split; [cbn; auto|]. rewrite <- Sa; auto. intros E. rewrite E in Et. congruence.
    + intros []. constructor; cbn [b_cur b_ip b_cp b_skip b_ba h_dirty ch_dirty]; try discriminate.
      intros _ Hd i Hi. rewrite (di_cur0 _ Hip Hd i Hi). apply Sa. auto.
  - specialize (H1 eq_refl). destruct (refs ip 1) as [e|] eqn:R1; [|congruence].
    pose proof (owned_good _ _ _ _ (bi_ba _ _ _ I) (Ci _ _ R1)) as (G1 & G2 & _).
    apply refs_ent in R1; auto. destruct R1 as (R1 & _). change B_TRANS with (Z.of_nat 1). rewrite get_nat.
    unfold ent in R1. rewrite R1. fold (ent ip 1) in R1. cbn [p_size p_off].
    destruct (Z.ltb_spec 0 (Z.of_N (snd e))); [|lia]. destruct (Z.ltb_spec 0 (Z.of_N (fst e))); [|lia].
    destruct (end_loop_ok sm A s ip I Hip Sk (t_arr (b_cp s)) 0 A (b_ba s)) as (L1 & L2).
    { reflexivity. } { apply (bi_ba _ _ _ I). } { auto. }
    { intros j f _ Hr. apply (bi_wf _ _ _ I (b_cp s)); cbn; auto. }
    change (Z.of_nat 0) with 0 in *.
    split; [intros S; destruct (L1 S) as (a' & ->); eauto|].
    intros s' E. destruct (end_loop 0 (t_arr (b_cp s)) ip (b_cur s) (b_ba s)) as [a'|] eqn:Ea; [|discriminate].
    injection E as <-. destruct (L2 _ eq_refl) as (A2 & B1 & B2 & B3 & B4). exists A2.
    cbn [b_cur b_ip b_cp b_skip b_ba h_dirty ch_dirty]. split; [|split; [|repeat split; auto]].
    + pose proof (leak3 _ _ _ I) as Lk. destruct I. unfold trs, refd in *. rewrite Hip in *.
      constructor; unfold trs, binv, refd in *; cbn [b_cur b_ip b_cp b_skip b_ba h_dirty ch_dirty]; auto; try discriminate.
      * intros t [<-|[<-|[]]].
        -- split; [apply bi_wf0; cbn; auto|]. intros i f Hf. apply B3; [apply bi_wf0 in Hf; cbn; auto|auto].
        -- split; auto. intros i f Hf. apply B3; auto.
      * intros S t [<-|[<-|[]]]; apply bi_sm0; cbn; auto.
      * intros S (i, f) Hx. destruct (Lk S _ (B2 _ Hx)) as [Et|[Et|(t & Et0 & Et)]]; [| |assert (t = ip) by congruence; subst t]; unfold refd, trs; cbn [b_cur b_ip b_cp fst snd] in *.
        -- exists (b_cur s). cbn. auto.
        -- exists ip. split; [cbn; auto|]. apply (B4 S); auto. lia.
        -- exists ip. cbn. auto.
    + intros []. constructor; cbn [b_cur b_ip b_cp b_skip b_ba h_dirty ch_dirty]; try discriminate.
      intros _ Hd i Hi. apply (di_cur0 _ Hip Hd i Hi).
Qed.

(** free_unused_blocknums *)
Lemma free_unused_loop_ok root : forall n i t, swf t -> (3 <= i)%nat -> (i + n = snub t)%nat ->
  exists t', free_unused_loop n (Z.of_nat i) root t = Some t' /\ swf t' /\ t_snub t' = t_snub t /\
    (forall j, (j < 3)%nat -> ent t' j = ent t j) /\
    (forall j, refs t' j = refs t j) /\ (forall j p, ent t j = Some p -> 0 < p_size p \/ Z.of_nat j = root -> ent t' j = Some p) /\
    (forall j p, ent t' j = Some p -> ~ is_free p -> ent t j = Some p).
Proof.
  induction n as [|n IH]; intros i t W Hi Hn; cbn [free_unused_loop].
  - exists t. repeat split; auto; apply W.
  - assert (Zi : Z.of_nat i + 1 = Z.of_nat (S i)) by lia. rewrite Zi.
    pose proof (swf_len _ W) as HL. destruct (ent_some t i) as (p & Ep); [lia|].
    destruct (Z.eqb_spec (Z.of_nat i) root) as [Hr|Hr]; [apply IH; auto; lia|].
    rewrite get_nat. unfold ent in Ep. rewrite Ep. fold (ent t i) in Ep.
    destruct (Z.eqb_spec (p_size p) 0) as [Hz|Hz]; [|apply IH; auto; lia].
    assert (p = unalloc). { pose proof (sw_pair _ W _ _ Ep) as [F|[F|F]]; auto; [unfold is_free, size_is_free in F; lia|lia]. }
    subst p. cbn [unalloc p_off]. rewrite Z.eqb_refl.
    destruct (free_in_cut t i unalloc W ltac:(lia) Ep) as (t1 & E1 & C1); [unfold is_free, unalloc, size_is_free; cbn; lia|].
    rewrite E1. pose proof (cut_refs _ _ _ C1) as Cr. destruct C1 as (W1 & S1 & L1 & Ei & Eo).
    destruct (IH (S i) t1) as (t' & Q1 & Q2 & Q3 & Q4 & Q5 & Q6 & Q7); auto; try (unfold snub in *; rewrite ?S1; lia).
    exists t'. split; auto. split; auto. split; [congruence|]. split; [|split; [|split]].
    + intros j Hj. rewrite Q4 by auto. apply Eo. lia.
    + intros j. rewrite Q5, Cr. destruct (Nat.eqb_spec j i) as [->|]; auto. rewrite refs_at, Ep. reflexivity.
    + intros j q Hj Hq. apply Q6; auto. rewrite Eo; auto. intros ->. assert (q = unalloc) by congruence. subst q.
      cbn in Hq. destruct Hq; [lia|congruence].
    + intros j q Hj Hq. apply Q7 in Hj; auto. destruct (Nat.eq_dec j i) as [->|]; [|rewrite <- Eo; auto].
      exfalso. apply Hq. assert (q = mkP (t_head t) size_is_free) by congruence. subst q. reflexivity.
Qed.

Theorem free_unused_ok sm A s root : bt_inv sm A s -> b_ip s = None ->
  exists s', free_unused s root = Some s' /\ bt_inv sm A s' /\ (dirty_inv s -> dirty_inv s') /\
    (forall i, refs (b_cur s') i = refs (b_cur s) i) /\ b_ip s' = None /\ b_cp s' = b_cp s /\ b_ba s' = b_ba s /\
    (forall j p, ent (b_cur s) j = Some p -> 0 < p_size p \/ Z.of_nat j = root -> ent (b_cur s') j = Some p) /\
    (forall j p, ent (b_cur s') j = Some p -> ~ is_free p -> ent (b_cur s) j = Some p).
Proof.
  intros I Hn. assert (Wc : swf (b_cur s)) by (apply (bi_wf _ _ _ I); cbn; auto).
  unfold free_unused. pose proof (swf_len _ Wc) as HL. pose proof (snub_z _ Wc) as Hz.
  destruct (free_unused_loop_ok root (Z.to_nat (t_snub (b_cur s) - RESERVED)) 3 (b_cur s)) as (t & E & W & S & L & R & P & Q); auto.
  { unfold RESERVED. lia. }
  change (Z.of_nat 3) with RESERVED in E. rewrite E. eexists; split; [reflexivity|].
  unfold with_cur. cbn [b_cur b_ip b_cp b_skip b_ba h_dirty ch_dirty]. split; [|split; [|repeat split; auto]].
  - pose proof (leak3 _ _ _ I) as Lk. destruct I. unfold trs, refd in *. rewrite Hn in *.
    constructor; unfold trs, binv, refd in *; cbn [b_cur b_ip b_cp b_skip b_ba h_dirty ch_dirty]; auto; rewrite ?Hn; try discriminate.
    + intros t' [<-|[<-|[]]]; [|apply bi_wf0; cbn; auto]. split; auto. intros i e. rewrite R. apply bi_wf0. cbn. auto.
    + rewrite L by lia. auto.
    + intros Sm t' [<-|[<-|[]]]; [rewrite S|]; apply bi_sm0; cbn; auto.
    + intros Sm x Hx. destruct (Lk Sm x Hx) as [Et|[Et|(t' & Et0 & Et)]]; [| |congruence]; unfold refd, trs; cbn [b_cur b_ip b_cp].
      * exists t. rewrite R. cbn. auto.
      * exists (b_cp s). cbn. auto.
  - intros []. constructor; cbn [b_cur b_ip b_cp b_skip b_ba h_dirty ch_dirty]; rewrite ?Hn; try discriminate.
    intros _ Hd i Hi. rewrite R. apply di_idle0; auto.
Qed.
