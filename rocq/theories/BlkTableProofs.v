(** Invariant of the block table: which extents the translations refer to. *)
From Verif Require Import Base MhsModel MhsHoles BlkAllocModel BlkAllocProofs BlkTableModel.
From Coq Require Import Permutation.
Open Scope Z_scope.

(** * Arrays *)
Definition ent (t : trans) (i : nat) : option pair := nth_error (t_arr t) i.

Lemma get_nat l n : get l (Z.of_nat n) = nth_error l n.
Proof. unfold get. destruct (Z.leb_spec 0 (Z.of_nat n)); [|lia]. now rewrite Nat2Z.id. Qed.
Lemma set_nth_ok : forall l n p, (n < length l)%nat -> exists l', set_nth l n p = Some l' /\
  length l' = length l /\ forall i, nth_error l' i = if (i =? n)%nat then Some p else nth_error l i.
Proof.
  induction l as [|x l IH]; intros n p H; cbn [length] in H; [lia|]. destruct n as [|n]; cbn [set_nth].
  - eexists; split; [reflexivity|]. split; auto. intros [|i]; reflexivity.
  - destruct (IH n p ltac:(lia)) as (l' & E1 & E2 & E3). rewrite E1. eexists; split; [reflexivity|].
    split; cbn [length]; auto. intros [|i]; cbn; auto.
Qed.
Lemma set_ok l n p : (n < length l)%nat -> exists l', set l (Z.of_nat n) p = Some l' /\
  length l' = length l /\ forall i, nth_error l' i = if (i =? n)%nat then Some p else nth_error l i.
Proof.
  intros H. unfold set. destruct (Z.leb_spec 0 (Z.of_nat n)); [|lia]. rewrite Nat2Z.id. now apply set_nth_ok.
Qed.
Lemma t_set_ok t n p : (n < length (t_arr t))%nat -> exists t', t_set t (Z.of_nat n) p = Some t' /\
  t_snub t' = t_snub t /\ t_head t' = t_head t /\ length (t_arr t') = length (t_arr t) /\
  forall i, ent t' i = if (i =? n)%nat then Some p else ent t i.
Proof.
  intros H. unfold t_set. destruct (set_ok (t_arr t) n p H) as (l' & E1 & E2 & E3). rewrite E1.
  eexists; split; [reflexivity|]. cbn [t_snub t_head t_arr]. auto.
Qed.

Lemma nth_firstn {A} : forall n i (l : list A),
  nth_error (firstn n l) i = if (i <? n)%nat then nth_error l i else None.
Proof.
  induction n as [|n IH]; intros i l.
  - cbn. now destruct i.
  - destruct l as [|x l]; [cbn [firstn]; assert (Hn : nth_error (@nil A) i = None) by (now destruct i); rewrite Hn; now destruct (i <? S n)%nat|].
    destruct i as [|i]; cbn [firstn nth_error]; auto. rewrite IH.
    destruct (Nat.ltb_spec i n), (Nat.ltb_spec (S i) (S n)); auto; lia.
Qed.

(** * One translation *)
Definition unalloc : pair := mkP diskoff_unused 0.
Definition is_free (p : pair) : Prop := p_size p = size_is_free.
Definition pair_ok (p : pair) : Prop := is_free p \/ p = unalloc \/ (0 < p_size p /\ 0 <= p_off p).

(** The free list: the head and the links of its members. *)
Fixpoint chain (f : nat -> option pair) (head : Z) (l : list nat) : Prop :=
  match l with
  | [] => head = freelist_null
  | i :: l' => head = Z.of_nat i /\ exists p, f i = Some p /\ is_free p /\ chain f (p_off p) l'
  end.

Definition snub (t : trans) : nat := Z.to_nat (t_snub t).

Record swf (t : trans) : Prop := {
  sw_snub : 3 <= t_snub t <= t_len t;
  sw_pair : forall i p, ent t i = Some p -> pair_ok p;
  sw_low : forall i p, ent t i = Some p -> (i < 3)%nat -> ~ is_free p;
  sw_high : forall i p, ent t i = Some p -> (snub t <= i)%nat -> is_free p;
  sw_list : exists l, chain (ent t) (t_head t) l /\ NoDup l /\
    forall i, In i l <-> (3 <= i < snub t)%nat /\ exists p, ent t i = Some p /\ is_free p }.

(** The extent a block number refers to. *)
Definition refs (t : trans) (i : nat) : option ext :=
  match ent t i with
  | Some p => if 0 <? p_size p then Some (Z.to_N (p_off p), Z.to_N (p_size p)) else None
  | None => None
  end.

Lemma chain_ext f g : forall l h, (forall i, In i l -> f i = g i) -> chain f h l -> chain g h l.
Proof.
  induction l as [|i l IH]; cbn; intros h H C; auto. destruct C as (C1 & p & C2 & C3 & C4).
  split; auto. exists p. rewrite <- H by auto. repeat split; auto.
Qed.
Lemma chain_link f : forall l h, chain f h l -> forall i p, In i l -> f i = Some p ->
  p_off p = freelist_null \/ exists j, In j l /\ p_off p = Z.of_nat j.
Proof.
  induction l as [|a l IH]; [intros ? ? ? ? []|]; cbn; intros h C i p [->|Hi] Hp.
  - destruct C as (_ & q & Q1 & _ & Q3). assert (q = p) by congruence. subst q.
    destruct l as [|b l]; cbn in Q3; auto. right. exists b. cbn. tauto.
  - destruct C as (_ & q & Q1 & _ & Q3). destruct (IH _ Q3 i p Hi Hp) as [|(j & Hj & E)]; auto.
    right. exists j. auto.
Qed.

Lemma swf_len t : swf t -> (3 <= snub t <= length (t_arr t))%nat.
Proof. intros []. unfold snub, t_len in *. lia. Qed.
Lemma snub_z t : swf t -> t_snub t = Z.of_nat (snub t).
Proof. intros []. unfold snub. lia. Qed.
Lemma ent_some t i : (i < length (t_arr t))%nat -> exists p, ent t i = Some p.
Proof. intros H. unfold ent. destruct (nth_error (t_arr t) i) eqn:E; eauto. apply nth_error_None in E. lia. Qed.
Lemma ent_lt t i p : ent t i = Some p -> (i < length (t_arr t))%nat.
Proof. intros H. apply nth_error_Some. unfold ent in H. congruence. Qed.

(** Links of free entries are small. *)
Lemma swf_link t i p : swf t -> ent t i = Some p -> is_free p -> (i < snub t)%nat ->
  p_off p = freelist_null \/ (3 <= p_off p < t_snub t).
Proof.
  intros W Hp Hf Hi. destruct (sw_list _ W) as (l & C & _ & Hl).
  assert (In i l).
  { apply Hl. split; [|eauto]. destruct (Nat.le_gt_cases 3 i); [lia|]. exfalso. eapply sw_low; eauto. }
  destruct (chain_link _ _ _ C i p H Hp) as [|(j & Hj & E)]; auto. right.
  apply Hl in Hj. rewrite (snub_z _ W). lia.
Qed.

(** Two translations with the same entries. *)
Lemma swf_set t t' n p : swf t -> (n < snub t)%nat -> pair_ok p -> ~ is_free p ->
  (forall q, ent t n = Some q -> ~ is_free q) ->
  t_snub t' = t_snub t -> t_head t' = t_head t -> length (t_arr t') = length (t_arr t) ->
  (forall i, ent t' i = if (i =? n)%nat then Some p else ent t i) -> swf t'.
Proof.
  intros W Hn Hp Hf Ho E1 E2 E3 E4. pose proof W as []. constructor.
  - unfold t_len in *. rewrite E1, E3. auto.
  - intros i q. rewrite E4. destruct (Nat.eqb_spec i n); [congruence|eauto].
  - intros i q. rewrite E4. destruct (Nat.eqb_spec i n); [congruence|eauto].
  - intros i q. unfold snub. rewrite E1. fold (snub t). rewrite E4.
    destruct (Nat.eqb_spec i n); [lia|eauto].
  - destruct sw_list0 as (l & C & N & Hl). exists l. rewrite E2.
    assert (Nn : ~ In n l). { rewrite Hl. intros (_ & q & Q1 & Q2). eapply Ho; eauto. }
    split; [|split; auto].
    + eapply chain_ext; [|exact C]. intros i Hi. rewrite E4. destruct (Nat.eqb_spec i n); [congruence|auto].
    + intros i. rewrite Hl. unfold snub. rewrite E1. fold (snub t). rewrite E4.
      destruct (Nat.eqb_spec i n) as [->|]; [|tauto]. split.
      * intros (_ & q & Q1 & Q2). exfalso. eapply Ho; eauto.
      * intros (_ & q & Q1 & Q2). assert (p = q) by congruence. subst. tauto.
Qed.

Lemma free_in_ok t n q : swf t -> (3 <= n < snub t)%nat -> ent t n = Some q -> ~ is_free q ->
  exists t', free_in t (Z.of_nat n) = Some t' /\ swf t' /\ t_snub t' = t_snub t /\
    length (t_arr t') = length (t_arr t) /\
    (forall i, ent t' i = if (i =? n)%nat then Some (mkP (t_head t) size_is_free) else ent t i).
Proof.
  intros W Hn Hq Hf. pose proof (swf_len _ W) as HL. pose proof (snub_z _ W) as Hz. unfold free_in, freeable.
  destruct (Z.leb_spec (t_snub t) (t_len t)) as [_|C]; [|unfold t_len in C; lia].
  unfold RESERVED. destruct (Z.leb_spec 3 (Z.of_nat n)); [|lia].
  destruct (Z.ltb_spec (Z.of_nat n) (t_snub t)); [|lia]. cbn [andb].
  destruct (t_set_ok t n (mkP (t_head t) size_is_free) ltac:(lia)) as (t1 & E1 & E2 & E3 & E4 & E5).
  rewrite E1. eexists; split; [reflexivity|]. cbn [t_snub t_arr].
  assert (W' : forall i, ent (mkT (t_snub t1) (Z.of_nat n) (t_arr t1)) i =
    if (i =? n)%nat then Some (mkP (t_head t) size_is_free) else ent t i) by exact E5.
  split; [|auto]. pose proof W as []. constructor.
  - unfold t_len in *. cbn [t_snub t_arr]. rewrite E2, E4. auto.
  - intros i p. rewrite W'. destruct (Nat.eqb_spec i n); [|eauto]. intros E. injection E as <-. left. reflexivity.
  - intros i p. rewrite W'. destruct (Nat.eqb_spec i n); [lia|eauto].
  - intros i p. rewrite W'. unfold snub. cbn [t_snub]. rewrite E2. fold (snub t).
    destruct (Nat.eqb_spec i n); [lia|eauto].
  - destruct sw_list0 as (l & C & N & Hl). cbn [t_head].
    assert (Nn : ~ In n l). { rewrite Hl. intros (_ & p & Q1 & Q2). congruence. }
    exists (n :: l). split; [|split].
    + cbn. split; auto. exists (mkP (t_head t) size_is_free). rewrite W', Nat.eqb_refl. split; auto.
      split; [reflexivity|]. cbn [p_off]. eapply chain_ext; [|exact C]. intros i Hi. rewrite W'.
      destruct (Nat.eqb_spec i n); [congruence|auto].
    + constructor; auto.
    + intros i. cbn [In]. rewrite Hl, W'. unfold snub. cbn [t_snub]. rewrite E2. fold (snub t).
      destruct (Nat.eqb_spec i n) as [->|Hi].
      * split; [|auto]. intros _. split; auto. eexists; split; [reflexivity|]. reflexivity.
      * split; [intros [?|?]; [congruence|tauto]|tauto].
Qed.

(** _copy_translation. *)
Lemma copy_ok t : swf t -> exists t', copy_trans t = Some t' /\ swf t' /\ t_snub t' = t_snub t /\
  length (t_arr t') = snub t /\
  (forall i, ent t' i = if (i =? 1)%nat then Some unalloc else if (i <? snub t)%nat then ent t i else None).
Proof.
  intros W. pose proof (swf_len _ W) as HL. pose proof (snub_z _ W) as Hz. unfold copy_trans.
  destruct (Z.leb_spec (t_snub t) (t_len t)) as [_|C]; [|unfold t_len in C; lia].
  set (l := firstn (Z.to_nat (t_snub t)) (t_arr t)).
  assert (Ll : length l = snub t) by (unfold l; rewrite firstn_length; fold (snub t); lia).
  destruct (set_ok l 1 unalloc ltac:(lia)) as (l' & E1 & E2 & E3).
  change B_TRANS with (Z.of_nat 1). fold unalloc. rewrite E1. eexists; split; [reflexivity|].
  cbn [t_snub t_arr].
  assert (W' : forall i, ent (mkT (t_snub t) (t_head t) l') i =
    if (i =? 1)%nat then Some unalloc else if (i <? snub t)%nat then ent t i else None).
  { intros i. unfold ent. cbn [t_arr]. rewrite E3. destruct (Nat.eqb_spec i 1); auto.
    destruct (Nat.ltb_spec i (snub t)).
    - unfold l. fold (snub t). rewrite nth_firstn. destruct (Nat.ltb_spec i (snub t)); [auto|lia].
    - apply nth_error_None. lia. }
  split; [|split; [auto|split; [lia|exact W']]]. pose proof W as []. constructor.
  - unfold t_len. cbn [t_snub t_arr]. lia.
  - intros i p. rewrite W'. destruct (Nat.eqb_spec i 1); [intros E; injection E as <-; right; left; reflexivity|].
    destruct (i <? snub t)%nat; [eauto|discriminate].
  - intros i p. rewrite W'. destruct (Nat.eqb_spec i 1); [intros E; injection E as <-; discriminate|].
    destruct (i <? snub t)%nat; [eauto|discriminate].
  - intros i p. rewrite W'. change (snub {| t_snub := t_snub t; t_head := t_head t; t_arr := l' |}) with (snub t).
    destruct (Nat.eqb_spec i 1); [lia|]. destruct (Nat.ltb_spec i (snub t)); [lia|discriminate].
  - change (snub {| t_snub := t_snub t; t_head := t_head t; t_arr := l' |}) with (snub t). cbn [t_head].
    destruct sw_list0 as (l0 & C & N & Hl). exists l0. split; [|split; auto].
    + eapply chain_ext; [|exact C]. intros i Hi. apply Hl in Hi. rewrite W'.
      destruct (Nat.eqb_spec i 1); [lia|]. destruct (Nat.ltb_spec i (snub t)); [auto|lia].
    + intros i. rewrite Hl, W'. split; intros (H1 & H2); split; auto;
      (destruct (Nat.eqb_spec i 1); [lia|]; destruct (Nat.ltb_spec i (snub t)); [auto|lia]).
Qed.

(** _maybe_optimize_translation. *)
Lemma used_prefix_ok l : forall n, (3 <= n)%nat -> (n <= length l)%nat ->
  (3 <= used_prefix l n <= n)%nat /\
  forall i p, (used_prefix l n <= i < n)%nat -> nth_error l i = Some p -> is_free p.
Proof.
  induction n as [|n IH]; intros H1 H2; [lia|]. cbn [used_prefix].
  destruct (Nat.leb_spec (S n) 3); [split; intros; lia|].
  destruct (nth_error l n) as [p|] eqn:E; [|apply nth_error_None in E; lia].
  destruct (Z.eqb_spec (p_size p) size_is_free) as [F|F]; [|split; intros; lia].
  destruct IH as (I1 & I2); try lia. split; [lia|]. intros i q Hi Hq.
  destruct (Nat.eq_dec i n) as [->|]; [|apply (I2 i); auto; lia]. assert (p = q) by congruence. now subst.
Qed.

Lemma nth_app_l {A} (a b : list A) i x : nth_error a i = Some x -> nth_error (a ++ b) i = Some x.
Proof. intros H. rewrite nth_error_app1; auto. apply nth_error_Some. congruence. Qed.
Lemma nth_snoc {A} (a : list A) x i y : nth_error (a ++ [x]) i = Some y <->
  nth_error a i = Some y \/ (i = length a /\ x = y).
Proof.
  destruct (Nat.lt_total i (length a)) as [H|[H|H]].
  - rewrite nth_error_app1 by auto. split; auto. intros [|(? & _)]; [auto|lia].
  - subst. rewrite nth_error_app2, Nat.sub_diag by lia. cbn. split.
    + intros E. injection E as <-. auto.
    + intros [E|(_ & <-)]; auto. assert (length a < length a)%nat by (apply nth_error_Some; congruence). lia.
  - assert (E1 : nth_error (a ++ [x]) i = None) by (apply nth_error_None; rewrite app_length; cbn; lia).
    assert (E2 : nth_error a i = None) by (apply nth_error_None; lia). rewrite E1, E2.
    split; [discriminate|]. intros [|(? & _)]; [discriminate|lia].
Qed.
Definition list_of (n : nat) (f : nat -> option pair) (c : list nat) : Prop :=
  NoDup c /\ forall i, In i c <-> (3 <= i < n)%nat /\ exists p, f i = Some p /\ is_free p.

Lemma regen_ok n : forall l pre head c, chain (nth_error pre) head c -> list_of n (nth_error pre) c ->
  exists r h c', regen (Z.of_nat (length pre)) (Z.of_nat n) l head = (r, h) /\ length r = length l /\
    chain (nth_error (pre ++ r)) h c' /\ list_of n (nth_error (pre ++ r)) c' /\
    forall k p, nth_error l k = Some p -> exists q, nth_error r k = Some q /\ (~ is_free p -> q = p) /\ (is_free p -> is_free q).
Proof.
  induction l as [|x l IH]; intros pre head c C (N & Hc).
  - exists [], head, c. rewrite app_nil_r. cbn. repeat split; auto; try (now apply Hc).
    intros k p E. destruct k; discriminate.
  - cbn [regen]. unfold RESERVED.
    destruct ((3 <=? Z.of_nat (length pre)) && (Z.of_nat (length pre) <? Z.of_nat n) && (p_size x =? size_is_free)) eqn:T.
    + apply andb_prop in T. destruct T as (T & T3). apply andb_prop in T. destruct T as (T1 & T2).
      apply Z.leb_le in T1. apply Z.ltb_lt in T2. apply Z.eqb_eq in T3.
      set (x' := mkP head size_is_free).
      assert (Np : ~ In (length pre) c).
      { rewrite Hc. intros (_ & p & E & _). assert (length pre < length pre)%nat by (apply nth_error_Some; congruence). lia. }
      destruct (IH (pre ++ [x']) (Z.of_nat (length pre)) (length pre :: c)) as (r & h & c' & E1 & E2 & E3 & E4 & E5).
      { cbn [chain]. split; auto. exists x'. split; [apply nth_snoc; auto|]. split; [reflexivity|].
        eapply chain_ext; [|exact C]. intros i Hi. apply Hc in Hi. destruct Hi as (_ & p & Ep & _).
        rewrite Ep. symmetry. apply nth_app_l. auto. }
      { split; [constructor; auto|]. intros i. cbn [In]. rewrite Hc. split.
        - intros [<-|(H1 & p & H2 & H3)].
          + split; [lia|]. exists x'. split; [apply nth_snoc; auto|reflexivity].
          + split; auto. exists p. split; auto. now apply nth_app_l.
        - intros (H1 & p & H2 & H3). apply nth_snoc in H2. destruct H2 as [H2|(H2 & _)]; [right; eauto|left; auto]. }
      assert (EL : Z.of_nat (length (pre ++ [x'])) = Z.of_nat (length pre) + 1) by (rewrite app_length; cbn; lia).
      rewrite EL in E1. rewrite E1. exists (x' :: r), h, c'. split; [reflexivity|]. cbn [length]. split; [lia|].
      replace (pre ++ x' :: r) with ((pre ++ [x']) ++ r) by (rewrite <- app_assoc; reflexivity).
      split; [auto|]. split; [auto|]. intros [|k] p E; cbn [nth_error] in *; [|eauto].
      injection E as <-. exists x'. split; auto. split; [intros F; exfalso; apply F; exact T3|reflexivity].
    + destruct (IH (pre ++ [x]) head c) as (r & h & c' & E1 & E2 & E3 & E4 & E5).
      { eapply chain_ext; [|exact C]. intros i Hi. apply Hc in Hi. destruct Hi as (_ & p & Ep & _).
        rewrite Ep. symmetry. apply nth_app_l. auto. }
      { split; auto. intros i. rewrite Hc. split.
        - intros (H1 & p & H2 & H3). split; auto. exists p. split; auto. now apply nth_app_l.
        - intros (H1 & p & H2 & H3). split; auto. apply nth_snoc in H2. destruct H2 as [H2|(-> & <-)]; [eauto|].
          exfalso. unfold is_free in H3. rewrite H3, Z.eqb_refl in T. lia. }
      assert (EL : Z.of_nat (length (pre ++ [x])) = Z.of_nat (length pre) + 1) by (rewrite app_length; cbn; lia).
      rewrite EL in E1. rewrite E1. exists (x :: r), h, c'. split; [reflexivity|]. cbn [length]. split; [lia|].
      replace (pre ++ x :: r) with ((pre ++ [x]) ++ r) by (rewrite <- app_assoc; reflexivity).
      split; [auto|]. split; [auto|]. intros [|k] p E; cbn [nth_error] in *; [|eauto].
      injection E as <-. exists x. auto.
Qed.

Lemma optimize_ok t : swf t -> swf (optimize t) /\ t_snub (optimize t) <= t_snub t /\
  forall i p, ~ is_free p -> ent (optimize t) i = Some p <-> ent t i = Some p.
Proof.
  intros W. pose proof (swf_len _ W) as HL. pose proof (snub_z _ W) as Hz. unfold optimize. fold (snub t).
  destruct (used_prefix_ok (t_arr t) (snub t) ltac:(lia) ltac:(lia)) as (U1 & U2).
  set (n := used_prefix (t_arr t) (snub t)) in *.
  destruct (Z.ltb_spec (Z.of_nat n) (t_snub t)) as [Hn|Hn]; [|split; [exact W|split; [lia|tauto]]].
  set (l := if Z.of_nat n <? t_len t / 4 then firstn (Z.to_nat (Z.of_nat n * 2)) (t_arr t) else t_arr t).
  assert (L1 : (n <= length l <= length (t_arr t))%nat).
  { unfold l. destruct (_ <? _); [rewrite firstn_length; unfold t_len in *; lia|lia]. }
  assert (L2 : forall i p, nth_error l i = Some p -> nth_error (t_arr t) i = Some p).
  { unfold l. intros i p. destruct (_ <? _); auto. rewrite nth_firstn. destruct (_ <? _)%nat; [auto|discriminate]. }
  assert (L3 : forall i p, nth_error (t_arr t) i = Some p -> ~ is_free p -> (i < n)%nat).
  { intros i p E F. destruct (Nat.lt_ge_cases i n) as [|G]; auto. exfalso. apply F.
    destruct (Nat.lt_ge_cases i (snub t)); [apply (U2 i); auto; lia|]. eapply sw_high; eauto. }
  destruct (regen_ok n l [] freelist_null []) as (r & h & c & E1 & E2 & E3 & (E4 & E5) & E6).
  { cbn. reflexivity. }
  { split; [constructor|]. intros i. cbn [In]. split; [tauto|]. intros (_ & p & H & _). destruct i; discriminate. }
  cbn [length] in E1. change (Z.of_nat 0) with 0 in E1. rewrite E1. cbn [t_snub app] in *.
  assert (Q : forall i q, nth_error r i = Some q -> exists p, nth_error l i = Some p).
  { intros i q H. destruct (nth_error l i) eqn:E; eauto. apply nth_error_None in E.
    assert (i < length r)%nat by (apply nth_error_Some; congruence). lia. }
  assert (B : forall i p, ~ is_free p -> nth_error r i = Some p <-> nth_error (t_arr t) i = Some p).
  { intros i p F. split.
    - intros H. destruct (Q _ _ H) as (x & Hx). destruct (E6 _ _ Hx) as (q & Q1 & Q2 & Q3).
      assert (q = p) by congruence. subst q.
      assert (~ is_free x) by (intros Fx; apply F; auto). specialize (Q2 H0). subst x. auto.
    - intros H. pose proof (L3 _ _ H F). destruct (nth_error l i) as [x|] eqn:Ex; [|apply nth_error_None in Ex; lia].
      pose proof (L2 _ _ Ex). assert (x = p) by congruence. subst x.
      destruct (E6 _ _ Ex) as (q & Q1 & Q2 & Q3). rewrite Q1, Q2; auto. }
  split; [|split; [lia|exact B]].
  assert (Fr : forall i p, nth_error r i = Some p -> is_free p \/ nth_error (t_arr t) i = Some p).
  { intros i p H. destruct (Z.eq_dec (p_size p) size_is_free); [left; auto|right; now apply B]. }
  pose proof W as []. constructor; unfold snub, t_len in *; cbn [t_snub t_arr t_head] in *; unfold ent in *; cbn [t_arr] in *.
  - lia.
  - intros i p H. destruct (Fr _ _ H); [left; auto|eauto].
  - intros i p H Hi. destruct (Fr _ _ H) as [F|F]; [|eauto]. intros _.
    destruct (Q _ _ H) as (x & Hx). pose proof (L2 _ _ Hx) as Hx'. destruct (E6 _ _ Hx) as (q & Q1 & Q2 & Q3).
    assert (q = p) by congruence. subst q. assert (Nx : ~ is_free x) by eauto.
    specialize (Q2 Nx). subst x. auto.
  - intros i p H Hi. destruct (Fr _ _ H) as [F|F]; auto.
    destruct (Z.eq_dec (p_size p) size_is_free) as [|Nf]; auto. exfalso. pose proof (L3 _ _ F Nf). lia.
  - exists c. split; auto. split; auto. rewrite Nat2Z.id. auto.
Qed.

(** _maybe_expand_translation and _allocate_blocknum_unlocked. *)
Lemma expand_ok t : swf t -> swf (expand t) /\ t_snub (expand t) = t_snub t /\ t_head (expand t) = t_head t /\
  (snub t < length (t_arr (expand t)))%nat /\
  (forall i, (i < length (t_arr t))%nat -> ent (expand t) i = ent t i) /\
  (forall i p, (length (t_arr t) <= i)%nat -> ent (expand t) i = Some p -> is_free p).
Proof.
  intros W. pose proof (swf_len _ W) as HL. pose proof (snub_z _ W) as Hz. unfold expand.
  destruct (Z.leb_spec (t_len t) (t_snub t)) as [H|H].
  - set (k := Z.to_nat (t_snub t * 2 - t_len t)).
    set (t' := mkT (t_snub t) (t_head t) (t_arr t ++ repeat (mkP freelist_null size_is_free) k)).
    assert (P1 : forall i, (i < length (t_arr t))%nat -> ent t' i = ent t i).
    { intros i Hi. unfold ent, t'. cbn [t_arr]. now apply nth_error_app1. }
    assert (P2 : forall i p, (length (t_arr t) <= i)%nat -> ent t' i = Some p -> is_free p).
    { intros i p Hi. unfold ent, t'. cbn [t_arr]. rewrite nth_error_app2 by auto. intros E.
      apply nth_error_In, repeat_spec in E. subst. reflexivity. }
    assert (P3 : forall i p, ent t' i = Some p -> ent t i = Some p \/ (is_free p /\ (length (t_arr t) <= i)%nat)).
    { intros i p E. destruct (Nat.lt_ge_cases i (length (t_arr t))); [left; rewrite <- P1; auto|right; eauto]. }
    split; [|split; [auto|split; [auto|split; [|auto]]]].
    + pose proof W as []. constructor.
      * unfold t_len in *. unfold t'. cbn [t_snub t_arr]. rewrite app_length. lia.
      * intros i p E. destruct (P3 _ _ E) as [|(F & _)]; [eauto|left; auto].
      * intros i p E Hi. rewrite P1 in E by lia. eauto.
      * intros i p E Hi. destruct (P3 _ _ E) as [|(F & _)]; eauto.
      * destruct sw_list0 as (c & C & N & Hc). exists c. change (snub t') with (snub t). change (t_head t') with (t_head t).
        split; [|split; auto].
        { eapply chain_ext; [|exact C]. intros i Hi. apply Hc in Hi. rewrite P1; auto. lia. }
        { intros i. rewrite Hc. split; intros (H1 & p & H2 & H3); split; auto; exists p; split; auto.
          - rewrite P1; auto. lia.
          - rewrite P1 in H2; auto. lia. }
    + unfold t'. cbn [t_arr]. rewrite app_length, repeat_length. unfold k, t_len in *. lia.
  - split; [exact W|]. do 2 (split; [reflexivity|]). split; [unfold t_len in H; lia|]. split; [tauto|].
    intros i p Hi E. apply ent_lt in E. lia.
Qed.

Lemma alloc_blocknum_ok s : swf (b_cur s) -> exists s' n, alloc_blocknum s = Some (s', Z.of_nat n) /\
  swf (b_cur s') /\ (3 <= n < snub (b_cur s'))%nat /\
  (forall q, ent (b_cur s) n = Some q -> is_free q) /\
  ent (b_cur s') n = Some unalloc /\
  (forall i p, i <> n -> ~ is_free p -> ent (b_cur s') i = Some p <-> ent (b_cur s) i = Some p) /\
  (t_head (b_cur s) <> freelist_null -> t_snub (b_cur s') = t_snub (b_cur s)) /\
  t_snub (b_cur s) <= t_snub (b_cur s') <= t_snub (b_cur s) + 1 /\
  b_ip s' = b_ip s /\ b_cp s' = b_cp s /\ b_skip s' = b_skip s /\ b_ba s' = b_ba s /\
  h_dirty s' = true /\ ch_dirty s' = ch_dirty s.
Proof.
  intros W. set (t := b_cur s) in *. pose proof (swf_len _ W) as HL. pose proof (snub_z _ W) as Hz.
  unfold alloc_blocknum. fold t. destruct (Z.eqb_spec (t_head t) freelist_null) as [Hh|Hh].
  - destruct (expand_ok t W) as (We & X1 & X2 & X3 & X4 & X5). cbv zeta.
    rewrite X1, Hz.
    set (t1 := mkT (Z.of_nat (snub t) + 1) (t_head (expand t)) (t_arr (expand t))).
    destruct (t_set_ok t1 (snub t) unalloc) as (t2 & E1 & E2 & E3 & E4 & E5); [exact X3|].
    fold unalloc. rewrite E1. unfold freeable.
    assert (S2 : t_snub t2 = Z.of_nat (snub t) + 1) by exact E2.
    assert (S3 : snub t2 = S (snub t)) by (unfold snub at 1; rewrite S2; lia).
    destruct (Z.leb_spec (t_snub t2) (t_len t2)) as [_|C]; [|unfold t_len in C; rewrite E4 in C; cbn [t_arr t1] in C; lia].
    unfold RESERVED. destruct (Z.leb_spec 3 (Z.of_nat (snub t))); [|lia].
    destruct (Z.ltb_spec (Z.of_nat (snub t)) (t_snub t2)); [|lia]. cbn [andb set_dirty].
    eexists _, (snub t). split; [reflexivity|]. cbn [b_cur b_ip b_cp b_skip b_ba h_dirty ch_dirty with_cur].
    assert (En : forall i, ent t2 i = if (i =? snub t)%nat then Some unalloc else ent (expand t) i) by exact E5.
    assert (Hfree : forall q, ent (expand t) (snub t) = Some q -> is_free q).
    { intros q Eq. eapply sw_high; [exact We|exact Eq|]. unfold snub. rewrite X1. lia. }
    split; [|split; [lia|split; [|split; [|split; [|split; [congruence|split; [lia|tauto]]]]]]].
    + pose proof We as []. constructor.
      * rewrite S2. unfold t_len. rewrite E4. cbn [t_arr t1]. lia.
      * intros i p. rewrite En. destruct (Nat.eqb_spec i (snub t)); [intros E; injection E as <-; right; left; auto|eauto].
      * intros i p. rewrite En. destruct (Nat.eqb_spec i (snub t)); [lia|eauto].
      * intros i p. rewrite En, S3. destruct (Nat.eqb_spec i (snub t)); [lia|]. intros E Hi.
        eapply sw_high0; [exact E|]. unfold snub. rewrite X1. fold (snub t). lia.
      * exists []. rewrite E3. cbn [t_head t1 chain]. rewrite X2. split; [auto|]. split; [constructor|].
        intros i. cbn [In]. split; [tauto|]. intros (H1 & p & H2 & H3). rewrite En in H2.
        destruct (Nat.eqb_spec i (snub t)); [injection H2 as <-; discriminate|].
        destruct sw_list0 as (c & C & N & Hc). rewrite X2, Hh in C.
        assert (c = []). { destruct c as [|a c]; auto. destruct C as (C & _). unfold freelist_null in C. lia. }
        subst c. apply (Hc i). unfold snub in *. rewrite X1. split; [lia|eauto].
    + intros q Eq. exact (sw_high _ W _ _ Eq (Nat.le_refl _)).
    + rewrite En, Nat.eqb_refl. auto.
    + intros i p Hi Hp. rewrite En. destruct (Nat.eqb_spec i (snub t)); [congruence|].
      destruct (Nat.lt_ge_cases i (length (t_arr t))) as [Hl|Hl]; [rewrite X4; tauto|].
      split; intros E; [exfalso; apply Hp; eauto|apply ent_lt in E; lia].
  - destruct (sw_list _ W) as (c & C & N & Hc). destruct c as [|n c]; [contradiction|].
    destruct C as (C1 & p & C2 & C3 & C4). rewrite C1, get_nat. unfold ent in C2. rewrite C2. fold (ent t n) in C2.
    assert (Hn : (3 <= n < snub t)%nat) by (apply Hc; cbn; auto).
    set (t1 := mkT (t_snub t) (p_off p) (t_arr t)).
    destruct (t_set_ok t1 n unalloc) as (t2 & E1 & E2 & E3 & E4 & E5); [cbn [t_arr t1]; lia|].
    fold unalloc. rewrite E1. unfold freeable.
    assert (S2 : t_snub t2 = t_snub t) by exact E2.
    assert (S3 : snub t2 = snub t) by (unfold snub; now rewrite S2).
    destruct (Z.leb_spec (t_snub t2) (t_len t2)) as [_|C]; [|unfold t_len in C; rewrite E4 in C; cbn [t_arr t1] in C; lia].
    unfold RESERVED. destruct (Z.leb_spec 3 (Z.of_nat n)); [|lia].
    destruct (Z.ltb_spec (Z.of_nat n) (t_snub t2)); [|lia]. cbn [andb set_dirty].
    eexists _, n. split; [reflexivity|]. cbn [b_cur b_ip b_cp b_skip b_ba h_dirty ch_dirty with_cur].
    assert (En : forall i, ent t2 i = if (i =? n)%nat then Some unalloc else ent t i) by exact E5.
    split; [|split; [lia|split; [|split; [|split; [|split; [auto|split; [lia|tauto]]]]]]].
    + pose proof W as []. inversion N; subst. constructor.
      * rewrite S2. unfold t_len. rewrite E4. cbn [t_arr t1]. unfold t_len in *. lia.
      * intros i q. rewrite En. destruct (Nat.eqb_spec i n); [intros E; injection E as <-; right; left; auto|eauto].
      * intros i q. rewrite En. destruct (Nat.eqb_spec i n); [lia|eauto].
      * intros i q. rewrite En, S3. destruct (Nat.eqb_spec i n); [lia|]. eauto.
      * exists c. rewrite E3. cbn [t_head t1]. split; [|split; auto].
        { eapply chain_ext; [|exact C4]. intros i Hi. rewrite En. destruct (Nat.eqb_spec i n); [congruence|auto]. }
        intros i. rewrite S3, En. destruct (Nat.eqb_spec i n) as [->|Hi].
        { split; [tauto|]. intros (_ & q & Q & F). injection Q as <-. discriminate. }
        rewrite <- Hc. cbn [In]. intuition congruence.
    + intros q Eq. congruence.
    + rewrite En, Nat.eqb_refl. auto.
    + intros i q Hi Hp. rewrite En. destruct (Nat.eqb_spec i n); [congruence|tauto].
Qed.
