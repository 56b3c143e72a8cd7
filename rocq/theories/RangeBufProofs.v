(** The range buffer remembers the ranges put into it. *)
From Coq Require Import Sorting.Permutation.
From Verif Require Import Base Bytes LtTreeModel RangeBufModel.
Open Scope N_scope.

Definition ends (g : rng) : ep * ep := (r_l g, r_r g).

(** The ranges the format can hold: keys of less than 2^16 bytes, shared memory
    means equal keys, and an empty right key only with an empty left key. *)
Definition storable (g : rng) : Prop :=
  ep_size (r_l g) < 65536 /\ ep_size (r_r g) < 65536 /\
  (r_same g = true -> r_l g = r_r g) /\
  (r_r g = Fin [] -> r_l g = Fin []).

Lemma le_enc2 n : n < 65536 -> exists a b, le_enc 2 n = [a; b] /\ a + 256 * b = n.
Proof.
  intros H. exists (n mod 256), (n / 256 mod 256). split; [reflexivity|].
  rewrite (N.mod_small (n / 256)). 2:{ apply N.div_lt_upper_bound; lia. }
  rewrite N.add_comm. symmetry. apply N.div_mod. lia.
Qed.

(** The body of [rec_decode] once the header is read. *)
Definition dec_body (stale : option bytes) (ln lp rp rn : bool) (lsz rsz : nat) (b1 : bytes)
  : option (rng * option bytes * nat) :=
  let linf := ln || lp in
  let rinf := rn || rp in
  do (lk, b2) <- (if linf then Some (stale, b1)
                  else guard (lsz <=? length b1)%nat;
                       Some (Some (firstn lsz b1), skipn lsz b1));
  do (rk, same) <- (if rinf then Some (None, false)
                    else if (rsz =? 0)%nat then do k <- lk; Some (Some k, negb linf)
                    else guard (rsz <=? length b2)%nat;
                         Some (Some (firstn rsz b2), false));
  do l <- (if ln then Some NegInf
           else if lp then Some PosInf
           else do k <- lk; Some (Fin k));
  do r <- (if rn then Some NegInf
           else if rp then Some PosInf
           else do k <- rk; Some (Fin k));
  Some (Rng l r same, lk, (8 + lsz + rsz)%nat).

Lemma rec_decode_hdr stale ln lp rp rn ls rs b1 : ls < 65536 -> rs < 65536 ->
  rec_decode stale ([b2n ln; b2n lp; b2n rp; b2n rn] ++ le_enc 2 ls ++ le_enc 2 rs ++ b1)
  = dec_body stale ln lp rp rn (N.to_nat ls) (N.to_nat rs) b1.
Proof.
  intros Hl Hr. destruct (le_enc2 ls Hl) as (a0 & a1 & -> & Va).
  destruct (le_enc2 rs Hr) as (c0 & c1 & -> & Vc).
  cbn [app]. unfold rec_decode. rewrite Va, Vc.
  destruct ln, lp, rp, rn; reflexivity.
Qed.

Lemma leb_app (a b : bytes) : (length a <=? length (a ++ b))%nat = true.
Proof. rewrite app_length. lia. Qed.

Lemma to_nat_len (a : bytes) : N.to_nat (len a) = length a.
Proof. unfold len. lia. Qed.

Lemma rec_decode_ok stale g rest : storable g ->
  exists g' st, rec_decode stale (rec_bytes g ++ rest) = Some (g', st, length (rec_bytes g)) /\
    ends g' = ends g /\ (r_same g' = true -> r_l g' = r_r g').
Proof.
  intros (Hl & Hr & Hs & He). destruct g as [l r same]. cbn [r_l r_r r_same] in *.
  unfold rec_bytes. destruct (dbt_equals (Rng l r same)) eqn:Eq.
  - assert (l = r).
    { unfold dbt_equals in Eq. cbn [r_l r_r r_same] in Eq. destruct l, r; auto; discriminate. }
    subst r. unfold rec_header. rewrite <- !app_assoc, rec_decode_hdr by (auto; lia).
    cbn [r_l]. rewrite !app_length, !le_enc_length. cbn [length].
    destruct l as [|k|]; cbn [ep_size is_neg is_pos ep_bytes app N.to_nat length];
      unfold dec_body; cbn [orb negb].
    + eexists _, _; split; [reflexivity|]. cbn. split; [reflexivity|discriminate].
    + rewrite to_nat_len, leb_app, firstn_app_exact. cbn [Nat.eqb].
      eexists _, _; split; [apply f_equal; apply f_equal2; [reflexivity|lia]|]. cbn. auto.
    + eexists _, _; split; [reflexivity|]. cbn. split; [reflexivity|discriminate].
  - unfold rec_header. rewrite <- !app_assoc, rec_decode_hdr by auto.
    cbn [r_l r_r]. rewrite !app_length, !le_enc_length. cbn [length].
    destruct l as [|k|], r as [|k'|];
      cbn [ep_size is_neg is_pos ep_bytes app N.to_nat length];
      unfold dec_body; cbn [orb negb];
      try (eexists _, _; split; [reflexivity|]; cbn; split; [reflexivity|discriminate]).
    + destruct k' as [|z k']; [discriminate (He eq_refl)|].
      rewrite to_nat_len, leb_app, firstn_app_exact. cbn [length Nat.eqb].
      eexists _, _; split; [reflexivity|]. cbn. split; [reflexivity|discriminate].
    + rewrite to_nat_len, leb_app, firstn_app_exact.
      eexists _, _; split; [apply f_equal; apply f_equal2; [reflexivity|lia]|]. cbn. split; [reflexivity|discriminate].
    + rewrite !to_nat_len, leb_app, firstn_app_exact, skipn_app_exact.
      destruct k' as [|z k'].
      * injection (He eq_refl) as ->. cbn.
        eexists _, _; split; [reflexivity|]. cbn. auto.
      * rewrite leb_app, firstn_app_exact. cbn [length Nat.eqb].
        eexists _, _; split; [apply f_equal; apply f_equal2; [reflexivity|lia]|]. cbn. split; [reflexivity|discriminate].
    + rewrite to_nat_len, leb_app, firstn_app_exact.
      eexists _, _; split; [apply f_equal; apply f_equal2; [reflexivity|lia]|]. cbn. split; [reflexivity|discriminate].
    + destruct k' as [|z k']; [discriminate (He eq_refl)|].
      rewrite to_nat_len, leb_app, firstn_app_exact. cbn [length Nat.eqb].
      eexists _, _; split; [reflexivity|]. cbn. split; [reflexivity|discriminate].
Qed.

Lemma rec_bytes_len g : (8 <= length (rec_bytes g))%nat.
Proof.
  unfold rec_bytes, rec_header. destruct (dbt_equals g);
  rewrite !app_length, !le_enc_length; cbn [length]; lia.
Qed.

Definition sane (g : rng) : Prop := r_same g = true -> r_l g = r_r g.

Definition flat (gs : list rng) : bytes := concat (map rec_bytes gs).

Lemma flat_app a b : flat (a ++ b) = flat a ++ flat b.
Proof. unfold flat. rewrite map_app, concat_app. reflexivity. Qed.

Lemma chunk_records_ok gs : Forall storable gs -> forall n stale,
  (length (flat gs) <= n)%nat ->
  exists rs st, chunk_records n stale (flat gs) = Some (rs, st) /\
    map ends rs = map ends gs /\ Forall sane rs.
Proof.
  induction 1 as [|g gs Hg _ IH]; intros n stale Hn.
  - exists [], stale. destruct n; cbn; auto.
  - cbn [flat map concat] in *. pose proof (rec_bytes_len g) as H8.
    change (concat (map rec_bytes gs)) with (flat gs) in *.
    rewrite app_length in Hn.
    destruct n as [|n]; [lia|].
    destruct (rec_decode_ok stale g (flat gs) Hg) as (g' & st & Hd & He & Hsame).
    destruct (IH n st) as (rs & st' & Hc & Hm & Hf); [lia|].
    exists (g' :: rs), st'. cbn [chunk_records].
    destruct (rec_bytes g ++ flat gs) eqn:Eb.
    { apply app_eq_nil in Eb as [Eb _]. rewrite Eb in H8. cbn in H8; lia. }
    rewrite <- Eb in *. rewrite Hd, skipn_app_exact, Hc.
    split; [reflexivity|]. split; [cbn; rewrite He, Hm; reflexivity|constructor; auto].
Qed.

Lemma chunks_records_ok gss : Forall (Forall storable) gss -> forall stale,
  exists rs, chunks_records stale (map flat gss) = Some rs /\
    map ends rs = map ends (concat gss) /\ Forall sane rs.
Proof.
  induction 1 as [|gs gss Hg _ IH]; intros stale.
  - exists []. cbn; auto.
  - cbn [map chunks_records concat].
    destruct (chunk_records_ok gs Hg (length (flat gs)) stale) as (rs & st & -> & Hm & Hf); [lia|].
    destruct (IH st) as (rs' & -> & Hm' & Hf').
    exists (rs ++ rs'). rewrite !map_app, Hm, Hm'. split; auto. split; auto. apply Forall_app; auto.
Qed.

(** [b] was filled with the ranges [gs] in this order. *)
Record rb_rep (b : rbuf) (gs : list rng) : Prop := {
  rep_st : Forall storable gs;
  rep_num : b_num b = N.of_nat (length gs);
  rep_arena : match a_cur (b_arena b) with
    | None => a_others (b_arena b) = [] /\ gs = []
    | Some c => exists gss gcur, gs = concat gss ++ gcur /\
        c_bytes c = flat gcur /\ gcur <> [] /\
        map c_bytes (a_others (b_arena b)) = map flat gss /\
        len (c_bytes c) <= c_size c /\
        Forall (fun c => len (c_bytes c) <= c_size c) (a_others (b_arena b))
    end }.

Lemma rep_empty : rb_rep rb_empty [].
Proof. constructor; cbn; auto. Qed.

Lemma round_to_page_ge n : n <= round_to_page n.
Proof.
  unfold round_to_page. pose proof (N.div_mod (n - 1) 4096). pose proof (N.mod_lt (n - 1) 4096). lia.
Qed.

Lemma rep_append b gs g : rb_rep b gs -> storable g ->
  exists b', rb_append b g = Some b' /\ rb_rep b' (gs ++ [g]) /\ rb_mem b < rb_mem b'.
Proof.
  intros [Hst Hnum Har] Hg. pose proof Hg as (Hl & Hr & _).
  unfold rb_append, MAX_KEY_SIZE.
  replace (ep_size (r_l g) <=? 65536) with true by lia.
  replace (ep_size (r_r g) <=? 65536) with true by lia. rewrite orb_true_r.
  eexists; split; [reflexivity|].
  assert (Hst' : Forall storable (gs ++ [g])) by (apply Forall_app; auto).
  assert (Hnum' : b_num b + 1 = N.of_nat (length (gs ++ [g]))).
  { rewrite app_length. cbn [length]. lia. }
  pose proof (rec_bytes_len g) as H8.
  unfold rb_mem, arena_in_use, arena_put, cur_used in *. destruct b as [[cur oth] num].
  cbn [b_arena b_num a_cur a_others] in *.
  set (nw := fun (x : N) => if N.min MAX_CHUNK (2 * x) <? len (rec_bytes g) then len (rec_bytes g)
                            else N.min MAX_CHUNK (2 * x)).
  assert (Hnw : forall x, len (rec_bytes g) <= round_to_page (nw x)).
  { intros x. etransitivity; [|apply round_to_page_ge]. unfold nw.
    destruct (N.ltb_spec (N.min MAX_CHUNK (2 * x)) (len (rec_bytes g))); lia. }
  unfold cur_size. cbn [a_cur].
  destruct cur as [c|].
  - destruct Har as (gss & gcur & -> & Hc & Hne & Ho & Hsz & Hszs).
    destruct (N.ltb_spec (c_size c) (len (c_bytes c) + len (rec_bytes g))).
    + split.
      * constructor; cbn [b_arena b_num a_cur a_others]; auto.
        exists (gss ++ [gcur]), [g]. cbn [c_bytes c_size].
        rewrite concat_app. cbn [concat]. rewrite app_nil_r.
        refine (conj eq_refl (conj _ (conj _ (conj _ (conj (Hnw _) _))))).
        -- unfold flat. cbn. rewrite app_nil_r. reflexivity.
        -- discriminate.
        -- rewrite !map_app, Ho. cbn. rewrite Hc. reflexivity.
        -- apply Forall_app; auto.
      * cbn [b_arena b_num a_cur a_others c_bytes]. rewrite map_app, fold_right_app. cbn [map fold_right].
        replace (fold_right N.add (c_size c + 0) (map c_size oth)) with (fold_right N.add 0 (map c_size oth) + c_size c).
        2:{ induction (map c_size oth); cbn; lia. }
        unfold len in *. lia.
    + split.
      * constructor; cbn [b_arena b_num a_cur a_others]; auto.
        exists gss, (gcur ++ [g]). cbn [c_bytes c_size]. rewrite <- app_assoc.
        refine (conj eq_refl (conj _ (conj _ (conj Ho (conj _ Hszs))))).
        -- rewrite flat_app, Hc. unfold flat at 3. cbn. rewrite app_nil_r. reflexivity.
        -- destruct gcur; discriminate.
        -- rewrite len_app. lia.
      * cbn [b_arena b_num a_cur a_others c_bytes]. rewrite len_app. unfold len at 3. lia.
  - destruct Har as [-> ->]. split.
    + constructor; cbn [b_arena b_num a_cur a_others]; auto.
      exists [], [g]. cbn [c_bytes c_size].
      refine (conj eq_refl (conj _ (conj _ (conj eq_refl (conj (Hnw _) _))))); auto.
      * unfold flat. cbn. rewrite app_nil_r. reflexivity.
      * discriminate.
    + cbn [b_arena b_num a_cur a_others c_bytes map fold_right]. unfold len. lia.
Qed.

Lemma rep_records b gs : rb_rep b gs ->
  exists rs, rb_records b = Some rs /\ Permutation (map ends rs) (map ends gs) /\ Forall sane rs
    /\ (a_others (b_arena b) = [] -> map ends rs = map ends gs).
Proof.
  intros [Hst _ Har]. unfold rb_records, arena_chunks.
  destruct (a_cur (b_arena b)) as [c|].
  - destruct Har as (gss & gcur & -> & Hc & Hne & Ho & _).
    apply Forall_app in Hst as [Hst1 Hst2].
    assert (Hf : Forall (Forall storable) (gcur :: gss)).
    { constructor; auto. clear -Hst1. induction gss; constructor; cbn in Hst1;
      apply Forall_app in Hst1 as [? ?]; auto. }
    destruct (chunks_records_ok (gcur :: gss) Hf None) as (rs & Hr & Hm & Hs).
    cbn [map] in Hr. rewrite Hc, Ho. exists rs. split; auto. rewrite Hm.
    cbn [concat]. rewrite !map_app. split; [apply Permutation_app_comm|].
    split; auto. intros Hn. rewrite Hn in Ho. destruct gss; [|discriminate].
    cbn. rewrite app_nil_r. reflexivity.
  - destruct Har as [_ ->]. exists []. cbn. auto.
Qed.

Lemma rep_nil_iff b gs : rb_rep b gs -> (rb_is_empty b = true <-> gs = []).
Proof.
  intros [_ _ Har]. unfold rb_is_empty, rb_mem, arena_in_use, cur_used.
  destruct (a_cur (b_arena b)) as [c|].
  - destruct Har as (gss & gcur & -> & Hc & Hne & _). rewrite N.eqb_eq.
    destruct gcur as [|g gcur]; [easy|]. pose proof (rec_bytes_len g).
    split.
    + intros H0. exfalso. rewrite Hc in H0. unfold flat in H0. cbn [map concat] in H0.
      rewrite len_app in H0. unfold len in H0. lia.
    + intros Hn. apply app_eq_nil in Hn as [_ Hn]. discriminate.
  - destruct Har as [-> ->]. cbn. tauto.
Qed.
