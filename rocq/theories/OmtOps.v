(** The operations of the order maintenance tree against plain sequences. *)
From Coq Require Import Sorted.
From Verif Require Import Base Bytes PkModel PkProofs OmtModel OmtProofs.
Open Scope nat_scope.

Section Ops.
Context {A : Type}.
Variable junk : nat -> A.
Variable sm : bool.
Implicit Types (t : tree A) (o : omt A).

Definition arr_ok (cap start num : nat) (vals ls : list A) : Prop :=
  length vals = cap /\ exists a b, vals = a ++ ls ++ b /\ length a = start /\ num = length ls.
Definition tre_ok t (ls : list A) : Prop := wt t /\ nob t /\ elems t = ls.
Definition U o (ls : list A) : Prop :=
  match o with Arr cap start num vals => arr_ok cap start num vals ls | Tre _ t _ => tre_ok t ls end.
Definition smok o : Prop := match o with Arr _ _ _ _ => sm = false | _ => True end.
Definition hasroom o : Prop := match o with Arr cap start num _ => start + num < cap | Tre cap _ free => free < cap end.
Definition Rep o (ml : list (A * bool)) : Prop :=
  match o with
  | Arr _ _ _ _ => sm = false /\ exists ls, U o ls /\ ml = unm ls
  | Tre _ t _ => wt t /\ mk t /\ ml = melems t /\ (sm = false -> nob t)
  end.

Lemma U_size o ls : U o ls -> size o = length ls.
Proof. destruct o; cbn; [intros (_ & a & b & _ & _ & E); exact E|]. intros (W & _ & <-). now rewrite wt_len. Qed.
Lemma Rep_size o ml : Rep o ml -> size o = length ml.
Proof.
  destruct o as [? ? ? ?|? t ?]; cbn [Rep].
  - intros (_ & ls & H & ->). rewrite unm_len. now apply U_size in H.
  - intros (W & _ & -> & _). cbn. now rewrite len_melems, wt_len.
Qed.
Lemma U_Rep o ls : U o ls -> smok o -> Rep o (unm ls).
Proof.
  destruct o; cbn [Rep smok]; [eauto|]. intros (W & N & <-) _. split; auto. split; [now apply nob_mk|]. split; [symmetry; now apply nob_melems|auto].
Qed.
Lemma has_marks_ok o ml : Rep o ml -> has_marks o = anym ml.
Proof.
  destruct o as [? ? ? ?|? t ?]; cbn [Rep].
  - intros (_ & ls & _ & ->). now rewrite anym_unm.
  - intros (_ & M & -> & _). destruct t as [|l v w m b r]; [reflexivity|]. destruct M as (_ & _ & ->). cbn [has_marks melems]. rewrite anym_app. cbn.
    fold (anym (melems r)). destruct m, (anym (melems l)), (anym (melems r)); reflexivity.
Qed.
Lemma barf_ok o ml : Rep o ml -> barf sm o = negb (anym ml).
Proof.
  intros R. unfold barf. rewrite (has_marks_ok _ _ R). destruct sm eqn:E; [reflexivity|]. cbn.
  destruct o as [? ? ? ?|? t ?]; cbn [Rep] in R.
  - destruct R as (_ & ls & _ & ->). now rewrite anym_unm.
  - destruct R as (_ & _ & -> & N). rewrite nob_melems, anym_unm by auto. reflexivity.
Qed.
Lemma Rep_U o ml : Rep o ml -> anym ml = false -> smok o /\ U o (map fst ml) /\ ml = unm (map fst ml).
Proof.
  clear junk. intros R N. split; [|split; [|now apply unm_of]].
  - destruct o; cbn in *; tauto.
  - destruct o as [? ? ? ?|? t ?]; cbn [Rep] in R.
    + destruct R as (_ & ls & H & ->). now rewrite unm_fst.
    + destruct R as (W & M & -> & _). cbn. split; auto. split; [now apply mk_nob|apply elems_melems].
Qed.

Lemma fresh_len n : length (fresh junk n) = n.
Proof. unfold fresh. now rewrite map_length, seq_length. Qed.
Lemma fresh_cut n k : k <= n -> exists x y, fresh junk n = x ++ y /\ length x = k.
Proof. intros L. apply split_len. now rewrite fresh_len. Qed.
Lemma copy_ok c (a ls b : list A) n : n = length ls -> n <= c -> exists z, length z = c - n /\
  slice (a ++ ls ++ b) (length a) n = Some ls /\ blit (fresh junk c) 0 ls = Some (ls ++ z).
Proof.
  intros -> L. destruct (fresh_cut c (length ls) L) as (x & y & E & LX). exists y.
  pose proof (fresh_len c) as F. rewrite E, app_length in F. split; [lia|]. split; [apply slice_app|].
  rewrite E. change (x ++ y) with ([] ++ x ++ y). rewrite (blit_at [] x ls y) by auto. reflexivity.
Qed.
Lemma fill_fresh c t : wt t -> nweight t <= c -> exists z, length z = c - nweight t /\ fill (fresh junk c) 0 t = Some (elems t ++ z).
Proof.
  intros W L. destruct (fresh_cut c (nweight t) L) as (x & y & E & LX). exists y.
  pose proof (fresh_len c) as F. rewrite E, app_length in F. split; [lia|]. rewrite E.
  change (x ++ y) with ([] ++ x ++ y). rewrite (fill_ok t W [] x y 0) by auto. reflexivity.
Qed.

Lemma convert_to_tree_ok o ls : U o ls -> exists cap t free, convert_to_tree o = Some (Tre cap t free) /\ tre_ok t ls /\
  match o with Arr _ _ _ _ => free < cap | Tre c _ f => cap = c /\ free = f end.
Proof.
  clear junk. destruct o as [cap start num vals|cap t free]; cbn [U convert_to_tree].
  - intros (L & a & b & -> & LA & ->). set (c := if _ <? 4 then 4 else _).
    assert (C : length ls < c) by (unfold c; destruct (Nat.ltb_spec (length ls * 2) 4); lia).
    destruct (rebuild_ok (length ls) c 0 a ls b start (length ls)) as (t & E & W & N & EL); auto; [lia|]. rewrite E. exists c, t, (0 + length ls).
    split; [reflexivity|]. split; [exact (conj W (conj N EL))|]. lia.
  - intros T. exists cap, t, free. auto.
Qed.
Lemma convert_to_array_ok o ls : U o ls -> exists cap start num vals, convert_to_array junk o = Some (Arr cap start num vals) /\
  arr_ok cap start num vals ls /\ match o with Arr c s n v => Arr cap start num vals = o | Tre _ _ _ => start + num < cap end.
Proof.
  destruct o as [cap start num vals|cap t free]; cbn [U convert_to_array].
  - intros H. exists cap, start, num, vals. auto.
  - intros (W & N & EL). set (c := if _ <? 4 then 4 else _).
    assert (C : nweight t < c) by (unfold c; destruct (Nat.ltb_spec (2 * nweight t) 4); lia).
    destruct (fill_fresh c t W) as (z & LZ & E); [lia|]. rewrite E. exists c, 0, (nweight t), (elems t ++ z). split; [reflexivity|]. split; [|lia].
    split; [rewrite app_length, wt_len by auto; lia|]. exists [], z. rewrite EL, <- (wt_len _ W), EL. auto.
Qed.
Lemma marks_tree_ok o ls : U o ls -> exists o', marks_tree sm o = Some o' /\ U o' ls /\ smok o' /\ (hasroom o -> hasroom o').
Proof.
  clear junk. intros H. unfold marks_tree. destruct sm eqn:E.
  - destruct (convert_to_tree_ok o ls H) as (cap & t & free & -> & T & C). exists (Tre cap t free). split; auto. split; auto. split; [exact Logic.I|].
    destruct o; cbn; [auto|]. destruct C as (-> & ->). auto.
  - exists o. split; auto. split; auto. split; auto. unfold smok. rewrite E. destruct o; auto.
Qed.
Lemma maybe_resize_array_ok cap start num vals ls n : arr_ok cap start num vals ls -> num <= n + 1 ->
  exists cap' start' vals', maybe_resize_array junk (Arr cap start num vals) n = Some (Arr cap' start' num vals') /\ arr_ok cap' start' num vals' ls /\
    (num < n -> start' + num < cap').
Proof.
  intros (L & a & b & -> & LA & EN) LN. unfold maybe_resize_array. set (c := if n <=? 2 then 4 else 2 * n).
  assert (C : n + 1 <= c) by (unfold c; destruct (Nat.leb_spec n 2); lia).
  destruct ((cap - start <? n) || (c <=? cap / 2)) eqn:E.
  - destruct (copy_ok c a ls b num EN) as (z & LZ & E1 & E2); [lia|]. rewrite <- LA, E1, E2. exists c, 0, (ls ++ z). split; auto. split; [|lia].
    split; [rewrite app_length; lia|]. exists [], z. auto.
  - apply orb_false_iff in E as (E & _). apply Nat.ltb_ge in E. exists cap, start, (a ++ ls ++ b). split; auto. split; [|lia].
    split; auto. exists a, b. auto.
Qed.
Lemma maybe_resize_or_convert_ok o ls n : U o ls -> smok o -> length ls <= n + 1 ->
  exists o', maybe_resize_or_convert junk sm o n = Some o' /\ U o' ls /\ smok o' /\ (length ls < n -> hasroom o').
Proof.
  intros H S LN. pose proof (U_size _ _ H) as SZ. destruct o as [cap start num vals|cap t free]; cbn [maybe_resize_or_convert].
  - cbn in SZ. destruct (maybe_resize_array_ok cap start num vals ls n H) as (cap' & start' & vals' & E & H' & R); [lia|]. rewrite E.
    exists (Arr cap' start' num vals'). split; auto. split; auto. split; auto. cbn. lia.
  - cbn in SZ. set (c := if n <=? 2 then 4 else 2 * n). destruct (_ || _ || _) eqn:E.
    + destruct (convert_to_array_ok (Tre cap t free) ls H) as (cap' & start & num & vals & E1 & H1 & R1). rewrite E1.
      destruct (marks_tree_ok (Arr cap' start num vals) ls H1) as (o' & E2 & H2 & S2 & R2). exists o'. auto.
    + apply orb_false_iff in E as (E & E3). apply orb_false_iff in E as (_ & E2). exists (Tre cap t free). split; auto. split; auto. split; auto.
      intros LT. cbn. apply andb_false_iff in E2 as [E2|E2]; [apply Nat.leb_gt in E2; lia|apply Nat.ltb_ge in E2; lia].
Qed.

Lemma rebalance_ok cap t free ls p s : tre_ok t ls -> sub_at t p = Some s ->
  exists o', rebalance junk sm (Tre cap t free) p = Some o' /\ U o' ls /\ smok o'.
Proof.
  intros T SA. unfold rebalance. destruct p as [|d p]; cbn [is_nil].
  - destruct (convert_to_array_ok (Tre cap t free) ls T) as (cap' & start & num & vals & E1 & H1 & _). rewrite E1.
    destruct (marks_tree_ok (Arr cap' start num vals) ls H1) as (o' & E2 & H2 & S2 & R2). exists o'. auto.
  - rewrite SA. destruct T as (W & N & EL). destruct (sub_ok (d :: p) t s W N SA) as (WS & NS).
    pose proof (fill_idxs_ok s WS [] (repeat None (nweight s)) [] 0 eq_refl (repeat_length _ _)) as F. cbn [app] in F. rewrite !app_nil_r in F. rewrite F.
    assert (LN : nweight s = length (nodes s)) by (rewrite nodes_len, wt_len; auto).
    destruct (rebuild_idxs_ok (nweight s) [] (nodes s) [] 0 (nweight s) eq_refl LN (le_n _)) as (s' & E & W' & E').
    cbn [app] in E. rewrite app_nil_r in E. rewrite E.
    destruct (put_ok s s') with (q := d :: p) (t := t) as (t' & -> & W2 & N2 & E2 & _); auto.
    + rewrite <- (wt_len _ W'), <- (wt_len _ WS), <- !nodes_len. now rewrite E'.
    + rewrite !nodes_elems. now rewrite E'.
    + rewrite nodes_nob, E'. now apply nodes_nob.
    + eexists. split; [reflexivity|]. split; [|exact Logic.I]. split; auto. split; auto. congruence.
Qed.
Lemma way_root p t : way [] None (Some p) t -> exists s, sub_at t p = Some s.
Proof. intros [D|(q & s & E & SA)]; [discriminate|]. injection E as ->. eauto. Qed.

Definition ins {B} (i : nat) (v : B) (l : list B) : list B := firstn i l ++ v :: skipn i l.
Lemma insert_at_ok o ls v idx : U o ls -> smok o -> barf sm o = true -> idx <= length ls ->
  exists o', insert_at junk sm o v idx = Some (Ok, o') /\ U o' (ins idx v ls) /\ smok o'.
Proof.
  intros H S B LI. unfold insert_at. rewrite B, (U_size _ _ H). destruct (Nat.ltb_spec (length ls) idx); [lia|].
  destruct (maybe_resize_or_convert_ok o ls (length ls + 1) H S) as (o1 & E1 & H1 & S1 & R1); [lia|]. rewrite E1. specialize (R1 ltac:(lia)).
  clear o H S B E1.
  match goal with |- context [match ?X with Some _ => _ | None => _ end] => set (mid := X) end.
  assert (M : exists o2, mid = Some o2 /\ U o2 ls /\ smok o2 /\ hasroom o2 /\
    match o2 with Arr _ start num _ => idx = num \/ (idx = 0 /\ 0 < start) | _ => True end).
  { unfold mid. destruct o1 as [cap start num vals|cap t free].
    - destruct (negb (idx =? num) && (negb (idx =? 0) || (start =? 0))) eqn:E.
      + destruct (convert_to_tree_ok _ _ H1) as (cap' & t & free & -> & T & C). eexists. split; [reflexivity|]. split; [exact T|]. cbn. auto.
      + exists (Arr cap start num vals). split; auto. split; auto. split; auto. split; auto.
        apply andb_false_iff in E as [E|E]; [left; destruct (Nat.eqb_spec idx num); [auto|discriminate]|].
        apply orb_false_iff in E as (E & E2). right. destruct (Nat.eqb_spec idx 0); [|discriminate]. apply Nat.eqb_neq in E2. lia.
    - exists (Tre cap t free). auto. }
  destruct M as (o2 & -> & H2 & S2 & R2 & P2). clear o1 H1 S1 R1.
  destruct o2 as [cap start num vals|cap t free]; cbn in R2.
  - destruct H2 as (L & a & b & -> & LA & EN). destruct (Nat.eqb_spec idx num) as [E|E].
    + rewrite !app_length in L. destruct b as [|y b]; [cbn in L; lia|].
      rewrite app_assoc. rewrite (blit1 (a ++ ls) b y v) by (rewrite app_length; lia). eexists. split; [reflexivity|]. split; [|exact S2].
      unfold U, ins. rewrite E, EN, firstn_all, skipn_all. split; [rewrite !app_length; cbn in *; lia|].
      exists a, b. rewrite <- !app_assoc. cbn [app]. split; [reflexivity|]. split; auto. rewrite app_length. cbn. lia.
    + destruct P2 as [?|(-> & PS)]; [lia|]. destruct (Nat.ltb_spec 0 start); [|lia].
      destruct (exists_last (l := a)) as (a' & y & ->); [destruct a; cbn in LA; [lia|discriminate]|]. rewrite app_length in LA. cbn in LA.
      rewrite <- app_assoc. cbn [app]. rewrite (blit1 a' (ls ++ b) y v) by lia. eexists. split; [reflexivity|]. split; [|exact S2].
      unfold U, ins. cbn [firstn skipn app]. split; [rewrite <- L, !app_length; cbn; rewrite !app_length; lia|].
      exists a', b. split; [reflexivity|]. split; [lia|]. cbn. lia.
  - pose proof (U_size _ _ H2) as SZ. destruct H2 as (W & N & EL). cbn in SZ.
    destruct (insert_internal_ok cap free v R2 t idx [] None W N) as (t' & reb & -> & W' & N' & E' & P); [lia|]. rewrite EL in E'.
    assert (T' : tre_ok t' (ins idx v ls)) by (split; auto).
    destruct reb as [p|].
    + destruct (way_root _ _ P) as (s & SA). destruct (rebalance_ok cap t' (Datatypes.S free) _ p s T' SA) as (o' & -> & HO & SO). eauto.
    + eexists. split; [reflexivity|]. split; [exact T'|exact Logic.I].
Qed.

Lemma delete_at_ok o ls idx : U o ls -> smok o -> barf sm o = true -> idx < length ls ->
  exists o', delete_at junk sm o idx = Some (Ok, o') /\ U o' (rm idx ls) /\ smok o'.
Proof.
  intros H S B LI. unfold delete_at. rewrite B, (U_size _ _ H). destruct (Nat.leb_spec (length ls) idx); [lia|].
  destruct (maybe_resize_or_convert_ok o ls (length ls - 1) H S) as (o1 & E1 & H1 & S1 & _); [lia|]. rewrite E1. clear o H S B E1.
  match goal with |- context [match ?X with Some _ => _ | None => _ end] => set (mid := X) end.
  assert (M : exists o2, mid = Some o2 /\ U o2 ls /\ smok o2 /\
    match o2 with Arr _ start num _ => idx = num - 1 \/ idx = 0 | _ => True end).
  { unfold mid. destruct o1 as [cap start num vals|cap t free].
    - destruct (negb (idx =? 0) && negb (idx =? num - 1)) eqn:E.
      + destruct (convert_to_tree_ok _ _ H1) as (cap' & t & free & -> & T & C). eexists. split; [reflexivity|]. split; [exact T|]. cbn. auto.
      + exists (Arr cap start num vals). split; auto. split; auto. split; auto.
        apply andb_false_iff in E as [E|E]; [right; destruct (Nat.eqb_spec idx 0)|left; destruct (Nat.eqb_spec idx (num - 1))]; auto; discriminate.
    - exists (Tre cap t free). auto. }
  destruct M as (o2 & -> & H2 & S2 & P2). clear o1 H1 S1.
  destruct o2 as [cap start num vals|cap t free].
  - destruct H2 as (L & a & b & -> & LA & EN). eexists. split; [reflexivity|]. split; [|exact S2]. unfold U. split; [exact L|].
    destruct (Nat.eqb_spec idx (num - 1)) as [E|E]; cbn [negb].
    + destruct (exists_last (l := ls)) as (l' & y & ->); [destruct ls; cbn in LI; [lia|discriminate]|]. rewrite app_length in EN, LI. cbn in EN, LI.
      exists a, (y :: b). rewrite (rm_mid l' [] y) by lia. rewrite app_nil_r, <- !app_assoc. cbn [app]. split; [reflexivity|]. split; [auto|lia].
    + destruct P2 as [? | ->]; [lia|]. destruct ls as [|y l']; [cbn in LI; lia|]. exists (a ++ [y]), b. rewrite <- app_assoc. split; [reflexivity|].
      rewrite app_length. cbn in *. split; lia.
  - pose proof (U_size _ _ H2) as SZ. destruct H2 as (W & N & EL). cbn in SZ.
    destruct (delete_internal_ok t idx [] None W N) as (t' & c & reb & -> & W' & N' & E' & _ & P); [lia|]. rewrite EL in E'.
    assert (T' : tre_ok t' (rm idx ls)) by (split; auto).
    destruct reb as [p|].
    + destruct (way_root _ _ P) as (s & SA). destruct (rebalance_ok cap t' free _ p s T' SA) as (o' & -> & HO & SO). eauto.
    + eexists. split; [reflexivity|]. split; [exact T'|exact Logic.I].
Qed.

Definition upd {B} (i : nat) (v : B) (l : list B) : list B := firstn i l ++ v :: skipn (S i) l.
Lemma upd_mid {B} (a b : list B) x v i : i = length a -> upd i v (a ++ x :: b) = a ++ v :: b.
Proof.
  clear junk sm. intros ->. unfold upd. rewrite firstn_app, skipn_app, firstn_all, Nat.sub_diag, skipn_all2 by lia.
  replace (S (length a) - length a) with 1 by lia. cbn. now rewrite app_nil_r.
Qed.
Lemma upd_l {B} (a b : list B) x v i : i < length a -> upd i v (a ++ x :: b) = upd i v a ++ x :: b.
Proof.
  clear junk sm. intros L. unfold upd. rewrite firstn_app, skipn_app. replace (i - length a) with 0 by lia. replace (S i - length a) with 0 by lia.
  cbn [firstn skipn]. rewrite app_nil_r, <- app_assoc. reflexivity.
Qed.
Lemma upd_r {B} (a b : list B) x v i : length a < i -> upd i v (a ++ x :: b) = a ++ x :: upd (i - length a - 1) v b.
Proof.
  clear junk sm. intros L. unfold upd. rewrite firstn_app, skipn_app, (firstn_all2 a), (skipn_all2 a) by lia.
  replace (S i - length a) with (S (S (i - length a - 1))) by lia. replace (i - length a) with (S (i - length a - 1)) by lia.
  cbn [firstn skipn app]. replace (S (i - length a - 1) - 1) with (i - length a - 1) by lia. rewrite <- app_assoc. reflexivity.
Qed.
Lemma set_internal_ok v : forall t idx, wt t -> nob t -> idx < nweight t ->
  exists t', set_at_internal t v idx = Some t' /\ wt t' /\ nob t' /\ elems t' = upd idx v (elems t) /\ nweight t' = nweight t.
Proof. clear junk sm.
  induction t as [|l IL x w m b r IR]; intros idx W N I; cbn [set_at_internal]; [cbn in I; lia|].
  destruct W as (WL & WR & ->). destruct N as (NL & NR & -> & ->). cbn [nweight] in I. pose proof (wt_len _ WL) as LL. cbn [elems].
  destruct (Nat.ltb_spec idx (nweight l)).
  - destruct (IL idx WL NL) as (t' & -> & W' & N' & E' & Q'); [lia|]. eexists. split; [reflexivity|]. cbn. rewrite E', Q', upd_l by lia. auto 10.
  - destruct (Nat.eqb_spec idx (nweight l)).
    + eexists. split; [reflexivity|]. cbn. rewrite upd_mid by lia. auto 10.
    + destruct (IR (idx - nweight l - 1) WR NR) as (t' & -> & W' & N' & E' & Q'); [lia|]. eexists. split; [reflexivity|]. cbn. rewrite E', Q', upd_r by lia. rewrite LL. auto 10.
Qed.
Lemma set_at_ok o ls v idx : U o ls -> smok o -> barf sm o = true -> idx < length ls ->
  exists o', set_at sm o v idx = Some (Ok, o') /\ U o' (upd idx v ls) /\ smok o'.
Proof.
  clear junk. intros H S B LI. unfold set_at. rewrite B, (U_size _ _ H). destruct (Nat.leb_spec (length ls) idx); [lia|].
  pose proof (U_size _ _ H) as SZ. destruct o as [cap start num vals|cap t free]; cbn in SZ.
  - destruct H as (L & a & b & -> & LA & EN). destruct (split_at_nth ls idx LI) as (x & y & z & -> & LX).
    rewrite upd_mid by auto. replace (a ++ (x ++ y :: z) ++ b) with ((a ++ x) ++ y :: z ++ b) by (rewrite <- !app_assoc; reflexivity).
    rewrite (blit1 (a ++ x)) by (rewrite app_length; lia). eexists. split; [reflexivity|]. split; [|exact S].
    split; [rewrite <- L, !app_length; cbn; rewrite !app_length; cbn; lia|]. exists a, b. rewrite <- !app_assoc. split; [reflexivity|].
    split; [auto|]. rewrite EN, !app_length. reflexivity.
  - destruct H as (W & N & EL). destruct (set_internal_ok v t idx W N) as (t' & -> & W' & N' & E' & _); [lia|].
    eexists. split; [reflexivity|]. split; [|exact Logic.I]. rewrite EL in E'. exact (conj W' (conj N' E')).
Qed.

Lemma from_sorted_ok (a ls b : list A) off n : off = length a -> n = length ls ->
  exists o', create_from_sorted_array junk sm (a ++ ls ++ b) off n = Some o' /\ U o' ls /\ smok o'.
Proof.
  intros -> EN. unfold create_from_sorted_array. destruct (copy_ok n a ls b n EN) as (z & LZ & E1 & E2); [lia|]. rewrite E1, E2.
  destruct (marks_tree_ok (Arr n 0 n (ls ++ z)) ls) as (o' & E & H & S & _).
  { split; [rewrite app_length; lia|]. exists [], z. auto. }
  exists o'. auto.
Qed.
Lemma steal_ok (ls z : list A) cap : length (ls ++ z) = cap ->
  exists o', create_steal_sorted_array sm (ls ++ z) (length ls) cap = Some o' /\ U o' ls /\ smok o'.
Proof.
  clear junk. intros L. destruct (marks_tree_ok (Arr cap 0 (length ls) (ls ++ z)) ls) as (o' & E & H & S & _).
  { split; [auto|]. exists [], z. auto. }
  exists o'. auto.
Qed.
Lemma create_ok : exists o', create junk sm = Some o' /\ U o' [] /\ smok o'.
Proof.
  destruct (marks_tree_ok (create_internal junk 2) []) as (o' & E & H & S & _).
  { split; [apply fresh_len|]. exists [], (fresh junk 2). auto. }
  exists o'. auto.
Qed.
Lemma create_no_array_ok : U (create_no_array sm) [] /\ smok (create_no_array sm).
Proof. unfold create_no_array. destruct sm eqn:E; [cbn; split; [|exact Logic.I]; split; cbn; auto|]. split; [|exact E]. split; auto. exists [], []. auto. Qed.

Lemma split_at_ok o ls idx : U o ls -> barf sm o = true -> idx <= length ls ->
  exists o1 o2, split_at junk sm o idx = Some (Ok, o1, Some o2) /\ U o1 (firstn idx ls) /\ smok o1 /\ U o2 (skipn idx ls) /\ smok o2.
Proof.
  intros H B LI. unfold split_at. rewrite B, (U_size _ _ H). destruct (Nat.ltb_spec (length ls) idx); [lia|].
  destruct (convert_to_array_ok _ _ H) as (cap & start & num & vals & -> & (L & a & b & -> & LA & EN) & _). clear o H B.
  destruct (split_len ls idx LI) as (x & y & -> & LX). rewrite firstn_app, skipn_app, firstn_all2, skipn_all2 by lia.
  replace (idx - length x) with 0 by lia. cbn [firstn skipn app]. rewrite app_nil_r. rewrite app_length in EN.
  replace (a ++ (x ++ y) ++ b) with ((a ++ x) ++ y ++ b) by (rewrite <- !app_assoc; reflexivity).
  destruct (from_sorted_ok (a ++ x) y b (start + idx) (num - idx)) as (o2 & -> & H2 & S2); [rewrite app_length; lia|lia|].
  destruct (maybe_resize_array_ok cap start idx ((a ++ x) ++ y ++ b) x idx) as (cap' & start' & vals' & -> & H1 & _).
  { split; [rewrite <- L, !app_length; lia|]. exists a, (y ++ b). rewrite <- !app_assoc. auto. }
  { lia. }
  destruct (marks_tree_ok (Arr cap' start' idx vals') x H1) as (o1 & -> & H1' & S1 & _). eauto 10.
Qed.

Lemma copyout_ok o ls pre x post off : U o ls -> off = length pre -> length x = length ls ->
  match o with
  | Arr _ start num v => do y <- slice v start num; blit (pre ++ x ++ post) off y
  | Tre _ t _ => fill (pre ++ x ++ post) off t
  end = Some (pre ++ ls ++ post).
Proof.
  intros H -> LX. pose proof (U_size _ _ H) as SZ. destruct o as [cap start num vals|cap t free]; cbn in SZ.
  - destruct H as (L & a & b & -> & LA & EN). rewrite (slice_at a ls b) by lia. apply blit_app. auto.
  - destruct H as (W & N & EL). rewrite (fill_ok t W pre x post) by lia. now rewrite EL.
Qed.
(** the values are read whether or not there are marks *)
Definition V o (ls : list A) : Prop :=
  match o with Arr cap start num vals => arr_ok cap start num vals ls | Tre _ t _ => wt t /\ elems t = ls end.
Lemma Rep_V o ml : Rep o ml -> V o (map fst ml).
Proof.
  destruct o as [? ? ? ?|? t ?]; cbn [Rep].
  - intros (_ & ls & H & ->). now rewrite unm_fst.
  - intros (W & _ & -> & _). split; auto. apply elems_melems.
Qed.
Lemma V_size o ls : V o ls -> size o = length ls.
Proof. clear junk sm. destruct o; cbn; [intros (_ & a & b & _ & _ & E); exact E|]. intros (W & <-). now rewrite wt_len. Qed.
Lemma copyout_V o ls pre x post off : V o ls -> off = length pre -> length x = length ls ->
  match o with
  | Arr _ start num v => do y <- slice v start num; blit (pre ++ x ++ post) off y
  | Tre _ t _ => fill (pre ++ x ++ post) off t
  end = Some (pre ++ ls ++ post).
Proof.
  intros H -> LX. pose proof (V_size _ _ H) as SZ. destruct o as [cap start num vals|cap t free]; cbn in SZ.
  - destruct H as (L & a & b & -> & LA & EN). rewrite (slice_at a ls b) by lia. apply blit_app. auto.
  - destruct H as (W & EL). rewrite (fill_ok t W pre x post) by lia. now rewrite EL.
Qed.
Lemma clone_ok this src ls : V src ls -> barf sm this = true ->
  exists o', clone junk sm this src = Some o' /\ U o' ls /\ smok o'.
Proof.
  intros H B. unfold clone. rewrite B. pose proof (V_size _ _ H) as SZ.
  assert (E : match src with
     | Arr _ start num v => do x <- slice v start num; blit (fresh junk num) 0 x
     | Tre _ t _ => fill (fresh junk (nweight t)) 0 t end = Some ls).
  { pose proof (copyout_V src ls [] (fresh junk (size src)) [] 0 H eq_refl) as C. rewrite fresh_len in C. specialize (C SZ).
    cbn [app] in C. rewrite !app_nil_r in C. destruct src; exact C. }
  rewrite E. destruct (marks_tree_ok (Arr (size src) 0 (size src) ls) ls) as (o' & EO & HO & SO & _).
  { split; [auto|]. exists [], []. rewrite app_nil_r. auto. }
  exists o'. auto.
Qed.
Lemma merge_ok this lo ro ls rs : V lo ls -> V ro rs -> smok lo -> barf sm this = true ->
  exists o', merge junk sm this lo ro = Some o' /\ U o' (ls ++ rs) /\ smok o'.
Proof.
  intros HL HR SL B. unfold merge. rewrite B. pose proof (V_size _ _ HL) as SZL. pose proof (V_size _ _ HR) as SZR.
  match goal with |- context [match ?X with Some _ => _ | None => _ end] => set (left := X) end.
  assert (M : exists cap a x z, left = Some (cap, length a, a ++ ls ++ x ++ z) /\ length (a ++ ls ++ x ++ z) = cap /\ length x = length rs).
  { unfold left. destruct lo as [cap start num vals|cap t free]; cbn in SZL.
    - destruct HL as (L & a & b & -> & LA & EN). destruct (Nat.leb_spec (size ro) (cap - (start + num))).
      + unfold create_steal_sorted_array, marks_tree. cbn in SL. rewrite SL. rewrite !app_length in L.
        destruct (split_len b (length rs)) as (x & z & -> & LX); [lia|]. exists cap, a, x, z. rewrite LA. split; [reflexivity|].
        split; [|auto]. rewrite !app_length in *. lia.
      + destruct (copy_ok (num + size ro) a ls b num EN) as (z & LZ & E1 & E2); [lia|]. rewrite <- LA, E1, E2.
        exists (num + size ro), [], z, []. rewrite app_nil_r. split; [reflexivity|]. cbn. rewrite app_length. lia.
    - destruct HL as (W & EL). destruct (fill_fresh (nweight t + size ro) t W) as (z & LZ & E); [lia|]. rewrite E.
      exists (nweight t + size ro), [], z, []. rewrite app_nil_r, EL. split; [reflexivity|]. cbn. rewrite app_length. lia. }
  destruct M as (cap & a & x & z & -> & LC & LX).
  pose proof (copyout_V ro rs (a ++ ls) x z (length a + size lo) HR) as C. rewrite app_length in C. specialize (C ltac:(lia) LX).
  rewrite <- !app_assoc in C. rewrite SZL in C.
  assert (E : match ro with
     | Arr _ rstart rnum rvals => do y <- slice rvals rstart rnum; blit (a ++ ls ++ x ++ z) (length a + size lo) y
     | Tre _ t _ => fill (a ++ ls ++ x ++ z) (length a + size lo) t end = Some (a ++ ls ++ rs ++ z)) by (rewrite SZL; exact C).
  rewrite E. destruct (marks_tree_ok (Arr cap (length a) (size lo + size ro) (a ++ ls ++ rs ++ z)) (ls ++ rs)) as (o' & EO & HO & SO & _).
  { split; [rewrite <- LC, !app_length; lia|]. exists a, z. rewrite <- !app_assoc. split; [reflexivity|]. rewrite app_length. auto. }
  exists o'. auto.
Qed.
Lemma clear_ok o ml : Rep o ml -> Rep (clear o) [].
Proof.
  destruct o as [cap start num vals|cap t free]; cbn [Rep clear].
  - intros (S & ls & (L & _) & _). split; auto. exists []. split; [|reflexivity]. split; auto. exists [], vals. auto.
  - intros _. cbn. auto.
Qed.

Lemma fetch_tree_ok : forall t i, wt t -> fetch_internal t i = nth_error (elems t) i.
Proof. clear junk sm.
  induction t as [|l IL x w m b r IR]; intros i W; cbn [fetch_internal elems]; [now destruct i|].
  destruct W as (WL & WR & ->). pose proof (wt_len _ WL) as LL. destruct (Nat.ltb_spec i (nweight l)).
  - rewrite nth_error_app1 by lia. auto.
  - rewrite nth_error_app2 by lia. rewrite LL. destruct (Nat.eqb_spec i (nweight l)) as [->|]; [now rewrite Nat.sub_diag|].
    destruct (i - nweight l) as [|k] eqn:E; [lia|]. cbn [nth_error]. rewrite IR by auto. f_equal. lia.
Qed.
Lemma fetch_ok o ls i : V o ls -> fetch o i = Some (match nth_error ls i with Some v => (Ok, Some v) | None => (Einval, None) end).
Proof.
  clear junk sm. intros H. unfold fetch. pose proof (V_size _ _ H) as SZ. rewrite SZ. destruct (Nat.leb_spec (length ls) i) as [L|L].
  - destruct (nth_error ls i) eqn:E; [|reflexivity]. assert (NN : nth_error ls i <> None) by congruence. apply nth_error_Some in NN. lia.
  - destruct (nth_error ls i) as [v|] eqn:E; [|apply nth_error_None in E; lia]. destruct o as [cap start num vals|cap t free].
    + destruct H as (_ & a & b & -> & LA & EN). rewrite nth_error_app2 by lia. replace (start + i - length a) with i by lia.
      rewrite nth_error_app1 by lia. now rewrite E.
    + destruct H as (W & EL). rewrite fetch_tree_ok by auto. now rewrite EL, E.
Qed.
End Ops.
