(** Proofs about the order maintenance tree. *)
From Coq Require Import Sorted.
From Verif Require Import Base Bytes PkModel PkProofs OmtModel.
Open Scope nat_scope.

Section P.
Context {A : Type}.
Implicit Types (t : tree A).

Fixpoint elems t : list A := match t with Nul => [] | Nod l v _ _ _ r => elems l ++ v :: elems r end.
Fixpoint melems t : list (A * bool) := match t with Nul => [] | Nod l v _ m _ r => melems l ++ (v, m) :: melems r end.
Fixpoint wt t : Prop := match t with Nul => True | Nod l _ w _ _ r => wt l /\ wt r /\ w = nweight l + 1 + nweight r end.
Fixpoint nob t : Prop := match t with Nul => True | Nod l _ _ m b r => nob l /\ nob r /\ m = false /\ b = false end.
Definition anym (ml : list (A * bool)) : bool := existsb snd ml.
Fixpoint mk t : Prop := match t with Nul => True | Nod l _ _ _ b r => mk l /\ mk r /\ b = anym (melems l) || anym (melems r) end.
Definition unm (l : list A) : list (A * bool) := map (fun v => (v, false)) l.

Lemma elems_melems t : elems t = map fst (melems t).
Proof. induction t as [|l IL v w m b r IR]; cbn; [reflexivity|]. now rewrite map_app, IL, IR. Qed.
Lemma wt_len t : wt t -> length (elems t) = nweight t.
Proof. induction t as [|l IL v w m b r IR]; cbn; [reflexivity|]. intros (WL & WR & ->). rewrite app_length. cbn. rewrite IL, IR; auto. lia. Qed.
Lemma len_melems t : length (melems t) = length (elems t).
Proof. now rewrite elems_melems, map_length. Qed.
Lemma unm_app a b : unm (a ++ b) = unm a ++ unm b.
Proof. apply map_app. Qed.
Lemma unm_fst l : map fst (unm l) = l.
Proof. unfold unm. rewrite map_map. apply map_id. Qed.
Lemma unm_len l : length (unm l) = length l.
Proof. apply map_length. Qed.
Lemma anym_unm l : anym (unm l) = false.
Proof. unfold anym, unm. induction l; cbn; auto. Qed.
Lemma unm_of ml : anym ml = false -> ml = unm (map fst ml).
Proof. induction ml as [|[v m] ml IH]; cbn; [reflexivity|]. intros E. apply orb_false_iff in E as (-> & E). f_equal. auto. Qed.
Lemma anym_app a b : anym (a ++ b) = anym a || anym b.
Proof. apply existsb_app. Qed.
Lemma nob_melems t : nob t -> melems t = unm (elems t).
Proof. induction t as [|l IL v w m b r IR]; cbn; [reflexivity|]. intros (NL & NR & -> & ->). now rewrite unm_app, IL, IR by auto. Qed.
Lemma nob_mk t : nob t -> mk t.
Proof. induction t as [|l IL v w m b r IR]; cbn; [auto|]. intros (NL & NR & -> & ->). rewrite !nob_melems, !anym_unm by auto. auto. Qed.
Lemma mk_nob t : mk t -> anym (melems t) = false -> nob t.
Proof.
  induction t as [|l IL v w m b r IR]; cbn; [auto|]. intros (NL & NR & ->). rewrite anym_app. cbn. intros E.
  apply orb_false_iff in E as (E1 & E). apply orb_false_iff in E as (E2 & E3). fold (anym (melems r)) in E3. rewrite E1, E3. auto.
Qed.
Lemma null_weight t : wt t -> (is_null t = true <-> nweight t = 0).
Proof. destruct t; cbn; [tauto|]. intros (_ & _ & ->). split; [discriminate|lia]. Qed.

(** ** arrays *)
Lemma blit1 (a b : list A) x v i : i = length a -> blit (a ++ x :: b) i [v] = Some (a ++ v :: b).
Proof. intros ->. exact (blit_app a [x] [v] b eq_refl). Qed.
Lemma nth_mid (a b : list A) v i : i = length a -> nth_error (a ++ v :: b) i = Some v.
Proof. intros ->. rewrite nth_error_app2, Nat.sub_diag by lia. reflexivity. Qed.
Lemma fill_ok t : wt t -> forall a x b off, off = length a -> length x = nweight t -> fill (a ++ x ++ b) off t = Some (a ++ elems t ++ b).
Proof.
  induction t as [|l IL v w m c r IR]; intros W a x b off -> L; cbn [fill elems].
  { destruct x; [reflexivity|discriminate]. }
  destruct W as (WL & WR & ->). cbn [nweight] in L.
  destruct (split_len x (nweight l)) as (x1 & x2 & -> & L1); [lia|]. rewrite app_length in L.
  destruct x2 as [|y x2]; cbn in L; [lia|]. rewrite <- app_assoc. rewrite (IL WL a x1 _ _ eq_refl) by lia.
  rewrite app_assoc. cbn [app]. rewrite (blit1 (a ++ elems l)) by (rewrite app_length, wt_len by auto; lia).
  replace ((a ++ elems l) ++ v :: x2 ++ b) with ((a ++ elems l ++ [v]) ++ x2 ++ b) by (rewrite <- !app_assoc; reflexivity).
  rewrite (IR WR (a ++ elems l ++ [v]) x2 b) by (rewrite ?app_length; cbn [length]; rewrite ?wt_len by auto; lia).
  f_equal. rewrite <- !app_assoc. reflexivity.
Qed.

Fixpoint nodes t : list (A * bool * bool) := match t with Nul => [] | Nod l v _ m b r => nodes l ++ (v, m, b) :: nodes r end.
Lemma nodes_len t : length (nodes t) = length (elems t).
Proof. induction t as [|l IL v w m c r IR]; cbn; [reflexivity|]. rewrite !app_length. cbn. lia. Qed.
Lemma fill_idxs_ok t : wt t -> forall a x b off, off = length a -> length x = nweight t ->
  fill_idxs (a ++ x ++ b) off t = Some (a ++ map Some (nodes t) ++ b).
Proof.
  induction t as [|l IL v w m c r IR]; intros W a x b off -> L; cbn [fill_idxs nodes map].
  { destruct x; [reflexivity|discriminate]. }
  destruct W as (WL & WR & ->). cbn [nweight] in L. pose proof (wt_len _ WL) as LL. rewrite <- nodes_len in LL.
  destruct (split_len x (nweight l)) as (x1 & x2 & -> & L1); [lia|]. rewrite app_length in L.
  destruct x2 as [|y x2]; cbn in L; [lia|]. rewrite <- app_assoc. rewrite (IL WL a x1 _ _ eq_refl) by lia.
  rewrite app_assoc. cbn [app].
  change ((a ++ map Some (nodes l)) ++ y :: x2 ++ b) with ((a ++ map Some (nodes l)) ++ [y] ++ x2 ++ b).
  rewrite (blit_at (a ++ map Some (nodes l)) [y]) by (rewrite ?app_length, ?map_length; auto; lia).
  replace ((a ++ map Some (nodes l)) ++ [Some (v, m, c)] ++ x2 ++ b) with ((a ++ map Some (nodes l) ++ [Some (v, m, c)]) ++ x2 ++ b) by (rewrite <- !app_assoc; reflexivity).
  rewrite (IR WR (a ++ map Some (nodes l) ++ [Some (v, m, c)]) x2 b) by (rewrite ?app_length, ?map_length; cbn [length]; lia).
  f_equal. rewrite map_app. cbn [map]. rewrite <- !app_assoc. reflexivity.
Qed.

Lemma half_cut {B} (ls : list B) n : length ls = n -> n <> 0 -> exists a v b, ls = a ++ v :: b /\ length a = n / 2 /\ length b = n - (n / 2 + 1).
Proof.
  intros L NZ. pose proof (Nat.div_lt n 2). destruct (split_at_nth ls (n / 2)) as (a & v & b & -> & LA); [lia|].
  exists a, v, b. split; auto. split; auto. rewrite app_length in L. cbn in L. lia.
Qed.
Lemma rebuild_ok : forall fuel cap free (a ls b : list A) off n, off = length a -> n = length ls -> n <= fuel -> free + n <= cap ->
  exists t, rebuild fuel cap free (a ++ ls ++ b) off n = Some (t, free + n) /\ wt t /\ nob t /\ elems t = ls.
Proof.
  induction fuel as [|fuel IH]; intros cap free a ls b off n -> EN F C; cbn [rebuild]; destruct (Nat.eqb_spec n 0) as [E0|E0].
  - exists Nul. cbn. rewrite E0, Nat.add_0_r. destruct ls; [auto|cbn in EN; lia].
  - lia.
  - exists Nul. cbn. rewrite E0, Nat.add_0_r. destruct ls; [auto|cbn in EN; lia].
  - destruct (half_cut ls n (eq_sym EN) E0) as (x & v & y & -> & LX & LY). cbv zeta. unfold node_malloc.
    destruct (Nat.ltb_spec free cap); [|lia].
    replace (a ++ (x ++ v :: y) ++ b) with ((a ++ x) ++ v :: y ++ b) by (rewrite <- !app_assoc; reflexivity).
    rewrite (nth_mid (a ++ x)) by (rewrite app_length; lia). pose proof (Nat.div_lt n 2).
    rewrite <- app_assoc. destruct (IH cap (S free) a x (v :: y ++ b) (length a) (n / 2)) as (tl & -> & WL & NL & EL); auto; [lia|lia|].
    replace (a ++ x ++ v :: y ++ b) with ((a ++ x ++ [v]) ++ y ++ b) by (rewrite <- !app_assoc; reflexivity).
    destruct (IH cap (S free + n / 2) (a ++ x ++ [v]) y b (length a + n / 2 + 1) (n - (n / 2 + 1))) as (tr & -> & WR & NR & ER);
      [rewrite !app_length; cbn [length]; lia|lia|lia|lia|].
    eexists. split; [f_equal; f_equal; lia|]. cbn. rewrite EL, ER. split; [|auto]. split; [auto|]. split; [auto|].
    rewrite <- (wt_len _ WL), <- (wt_len _ WR), EL, ER. lia.
Qed.
Lemma rebuild_idxs_ok : forall fuel (a : list (option (A * bool * bool))) ls b off n, off = length a -> n = length ls -> n <= fuel ->
  exists t, rebuild_idxs fuel (a ++ map Some ls ++ b) off n = Some t /\ wt t /\ nodes t = ls.
Proof.
  induction fuel as [|fuel IH]; intros a ls b off n -> EN F; cbn [rebuild_idxs]; destruct (Nat.eqb_spec n 0) as [E0|E0].
  - exists Nul. cbn. destruct ls; [auto|cbn in EN; lia].
  - lia.
  - exists Nul. cbn. destruct ls; [auto|cbn in EN; lia].
  - destruct (half_cut ls n (eq_sym EN) E0) as (x & [[v m] c] & y & -> & LX & LY). cbv zeta.
    rewrite map_app. cbn [map].
    replace (a ++ (map Some x ++ Some (v, m, c) :: map Some y) ++ b) with ((a ++ map Some x) ++ Some (v, m, c) :: map Some y ++ b) by (rewrite <- !app_assoc; reflexivity).
    rewrite nth_error_app2 by (rewrite app_length, map_length; lia). rewrite app_length, map_length.
    replace (length a + n / 2 - (length a + length x)) with 0 by lia. cbn [nth_error]. pose proof (Nat.div_lt n 2).
    rewrite <- app_assoc. destruct (IH a x (Some (v, m, c) :: map Some y ++ b) (length a) (n / 2)) as (tl & -> & WL & EL); auto; [lia|].
    replace (a ++ map Some x ++ Some (v, m, c) :: map Some y ++ b) with ((a ++ map Some x ++ [Some (v, m, c)]) ++ map Some y ++ b) by (rewrite <- !app_assoc; reflexivity).
    destruct (IH (a ++ map Some x ++ [Some (v, m, c)]) y b (length a + n / 2 + 1) (n - (n / 2 + 1))) as (tr & -> & WR & ER);
      [rewrite !app_length, map_length; cbn [length]; lia|lia|lia|].
    eexists. split; [reflexivity|]. cbn. rewrite EL, ER. split; [|auto]. split; [auto|]. split; [auto|].
    rewrite <- (wt_len _ WL), <- (wt_len _ WR), <- !nodes_len, EL, ER. lia.
Qed.
Lemma nodes_elems t : elems t = map (fun p => fst (fst p)) (nodes t).
Proof. induction t as [|l IL v w m c r IR]; cbn; [reflexivity|]. now rewrite map_app, IL, IR. Qed.
Lemma nodes_nob t : nob t <-> Forall (fun p => snd (fst p) = false /\ snd p = false) (nodes t).
Proof.
  induction t as [|l IL v w m c r IR]; cbn; [split; auto|]. rewrite Forall_app, Forall_cons_iff, IL, IR. cbn. tauto.
Qed.

(** ** insert and delete in a tree *)
Lemma ins_l (a b : list A) x v i : i <= length a -> firstn i (a ++ x :: b) ++ v :: skipn i (a ++ x :: b) = (firstn i a ++ v :: skipn i a) ++ x :: b.
Proof. intros L. rewrite firstn_app, skipn_app. replace (i - length a) with 0 by lia. cbn [firstn skipn]. rewrite app_nil_r, <- app_assoc. reflexivity. Qed.
Lemma ins_r (a b : list A) x v i : length a < i -> firstn i (a ++ x :: b) ++ v :: skipn i (a ++ x :: b) =
  a ++ x :: (firstn (i - length a - 1) b ++ v :: skipn (i - length a - 1) b).
Proof.
  intros L. rewrite firstn_app, skipn_app, (firstn_all2 a), (skipn_all2 a) by lia.
  destruct (i - length a) as [|k] eqn:E; [lia|]. cbn [firstn skipn app]. replace (S k - 1) with k by lia. rewrite <- app_assoc. reflexivity.
Qed.
Definition way (here : path) (reb reb' : option path) t : Prop :=
  match reb with
  | Some _ => reb' = reb
  | None => reb' = None \/ exists q s, reb' = Some (here ++ q) /\ sub_at t q = Some s
  end.
Lemma way_down here d reb wl wr reb' t t' :
  way (here ++ [d]) (note reb here wl wr) reb' t -> (forall q, sub_at t' (d :: q) = sub_at t q) -> way here reb reb' t'.
Proof.
  unfold way, note. intros W D. destruct reb; [exact W|]. destruct (will_need_rebalance wl wr).
  - right. exists [], t'. rewrite app_nil_r. split; [exact W|destruct t'; reflexivity].
  - destruct W as [->|(q & s & -> & E)]; [auto|]. right. exists (d :: q), s. rewrite <- app_assoc. split; [reflexivity|]. now rewrite D.
Qed.
Lemma insert_internal_ok cap free v : free < cap -> forall t idx here reb, wt t -> nob t -> idx <= nweight t ->
  exists t' reb', insert_internal cap free t v idx here reb = Some (t', S free, reb') /\ wt t' /\ nob t' /\
    elems t' = firstn idx (elems t) ++ v :: skipn idx (elems t) /\ way here reb reb' t'.
Proof.
  intros F. induction t as [|l IL x w m b r IR]; intros idx here reb W N I; cbn [insert_internal].
  - cbn in I. destruct (Nat.eqb_spec idx 0); [|lia]. unfold node_malloc. destruct (Nat.ltb_spec free cap); [|lia].
    eexists _, reb. split; [reflexivity|]. subst idx. cbn. split; [auto|]. split; [auto|]. split; [auto|]. unfold way. destruct reb; auto.
  - destruct W as (WL & WR & ->). destruct N as (NL & NR & -> & ->). cbn [nweight] in I.
    pose proof (wt_len _ WL) as LL. pose proof (wt_len _ WR) as LR. destruct (Nat.leb_spec idx (nweight l)) as [C|C].
    + destruct (IL idx (here ++ [false]) (note reb here (nweight l + 1) (nweight r)) WL NL C) as (l' & reb' & -> & W' & N' & E' & P).
      eexists _, reb'. split; [reflexivity|]. pose proof (wt_len _ W') as L'. rewrite E' in L'.
      cbn [elems]. rewrite ins_l by lia. rewrite E'. split; [|split; [|split; [reflexivity|]]].
      * cbn. split; auto. split; auto. rewrite <- L', app_length. cbn. rewrite firstn_length, skipn_length. lia.
      * cbn. auto.
      * eapply way_down; [exact P|]. reflexivity.
    + destruct (IR (idx - nweight l - 1) (here ++ [true]) (note reb here (nweight l) (nweight r + 1)) WR NR ltac:(lia)) as (r' & reb' & -> & W' & N' & E' & P).
      eexists _, reb'. split; [reflexivity|]. pose proof (wt_len _ W') as L'. rewrite E' in L'.
      cbn [elems]. rewrite ins_r by lia. rewrite E', LL. split; [|split; [|split; [reflexivity|]]].
      * cbn. split; auto. split; auto. rewrite <- L', app_length. cbn. rewrite firstn_length, skipn_length. lia.
      * cbn. auto.
      * eapply way_down; [exact P|]. reflexivity.
Qed.

Definition rm {B} (i : nat) (ls : list B) : list B := firstn i ls ++ skipn (S i) ls.
Lemma rm_l {B} (a b : list B) x i : i < length a -> rm i (a ++ x :: b) = rm i a ++ x :: b.
Proof.
  intros L. unfold rm. rewrite firstn_app, skipn_app. replace (i - length a) with 0 by lia. replace (S i - length a) with 0 by lia.
  cbn [firstn skipn]. rewrite app_nil_r, <- app_assoc. reflexivity.
Qed.
Lemma rm_mid {B} (a b : list B) x i : i = length a -> rm i (a ++ x :: b) = a ++ b.
Proof.
  intros ->. unfold rm. rewrite firstn_app, skipn_app, firstn_all, Nat.sub_diag, skipn_all2 by lia.
  replace (S (length a) - length a) with 1 by lia. cbn. now rewrite app_nil_r.
Qed.
Lemma rm_r {B} (a b : list B) x i : length a < i -> rm i (a ++ x :: b) = a ++ x :: rm (i - length a - 1) b.
Proof.
  intros L. unfold rm. rewrite firstn_app, skipn_app, (firstn_all2 a), (skipn_all2 a) by lia.
  replace (S i - length a) with (S (S (i - length a - 1))) by lia. replace (i - length a) with (S (i - length a - 1)) by lia.
  cbn [firstn skipn app]. replace (S (i - length a - 1) - 1) with (i - length a - 1) by lia. rewrite <- app_assoc. reflexivity.
Qed.
Lemma rm_len {B} i (ls : list B) : i < length ls -> length (rm i ls) = length ls - 1.
Proof. intros L. unfold rm. rewrite app_length, firstn_length, skipn_length. lia. Qed.
Lemma delete_internal_ok : forall t idx here reb, wt t -> nob t -> idx < nweight t ->
  exists t' c reb', delete_internal t idx here reb = Some (t', c, reb') /\ wt t' /\ nob t' /\
    elems t' = rm idx (elems t) /\ (idx = 0 -> c = nth_error (elems t) 0) /\ way here reb reb' t'.
Proof.
  assert (KEEP : forall here reb t, way here reb reb t) by (intros here [] t; cbn; auto).
  induction t as [|l IL x w m b r IR]; intros idx here reb W N I; cbn [delete_internal]; [cbn in I; lia|].
  destruct W as (WL & WR & ->). destruct N as (NL & NR & -> & ->). cbn [nweight] in I.
  pose proof (wt_len _ WL) as LL. pose proof (wt_len _ WR) as LR. cbn [elems]. destruct (Nat.ltb_spec idx (nweight l)) as [C|C].
  - destruct (IL idx (here ++ [false]) (note reb here (nweight l - 1) (nweight r)) WL NL C) as (l' & c & reb' & -> & W' & N' & E' & H & P).
    eexists _, c, reb'. split; [reflexivity|]. pose proof (wt_len _ W') as L'. rewrite E', rm_len in L' by lia. cbn [elems].
    rewrite E', rm_l by lia. split; [|split; [|split; [reflexivity|split]]].
    + cbn. split; auto. split; auto. lia.
    + cbn. auto.
    + intros Z. rewrite (H Z). destruct (elems l) eqn:EL; [cbn in LL; lia|]. reflexivity.
    + eapply way_down; [exact P|]. reflexivity.
  - destruct (Nat.eqb_spec idx (nweight l)) as [C2|C2].
    + rewrite rm_mid by lia. destruct (is_null l) eqn:XL; [|destruct (is_null r) eqn:XR].
      * destruct l; [|discriminate]. eexists _, _, reb. split; [reflexivity|]. cbn. auto.
      * destruct r; [|discriminate]. eexists _, _, reb. split; [reflexivity|]. rewrite app_nil_r. split; auto. split; auto. split; auto. split; [|auto].
        intros Z. assert (Z1 : nweight l = 0) by lia. apply (null_weight _ WL) in Z1. congruence.
      * assert (PL : nweight l <> 0) by (intros Z1; apply (null_weight _ WL) in Z1; congruence).
        assert (PR : nweight r <> 0) by (intros Z1; apply (null_weight _ WR) in Z1; congruence).
        destruct (IR 0 (here ++ [true]) (note reb here (nweight l) (nweight r - 1)) WR NR ltac:(lia)) as (r' & c & reb' & -> & W' & N' & E' & H & P).
        eexists _, _, reb'. split; [reflexivity|]. pose proof (wt_len _ W') as L'. rewrite E', rm_len in L' by lia. rewrite (H eq_refl).
        destruct (elems r) as [|y er] eqn:ER; [cbn in LR; lia|]. cbn [nth_error]. split; [|split; [|split; [|split]]].
        -- cbn. split; auto. split; auto. lia.
        -- cbn. auto.
        -- cbn [elems]. rewrite E'. reflexivity.
        -- lia.
        -- eapply way_down; [exact P|]. reflexivity.
    + destruct (IR (idx - nweight l - 1) (here ++ [true]) (note reb here (nweight l) (nweight r - 1)) WR NR ltac:(lia)) as (r' & c & reb' & -> & W' & N' & E' & H & P).
      eexists _, c, reb'. split; [reflexivity|]. pose proof (wt_len _ W') as L'. rewrite E', rm_len in L' by lia. cbn [elems].
      rewrite E', rm_r by lia. rewrite LL. split; [|split; [|split; [reflexivity|split]]].
      * cbn. split; auto. split; auto. lia.
      * cbn. auto.
      * lia.
      * eapply way_down; [exact P|]. reflexivity.
Qed.

Lemma put_ok s s' : nweight s' = nweight s -> elems s' = elems s -> wt s' -> nob s' -> forall q t, wt t -> nob t -> sub_at t q = Some s ->
  exists t', put_at t q s' = Some t' /\ wt t' /\ nob t' /\ elems t' = elems t /\ nweight t' = nweight t.
Proof.
  intros EW EE WS NS. induction q as [|d q IH]; intros t W N SA.
  - exists s'. destruct t; cbn in SA; injection SA as <-; auto.
  - destruct t as [|l x w m b r]; [destruct d; discriminate|]. destruct W as (WL & WR & ->). destruct N as (NL & NR & -> & ->).
    destruct d; cbn [sub_at] in SA; cbn [put_at].
    + destruct (IH r WR NR SA) as (t' & -> & W' & N' & E' & Q'). eexists. split; [reflexivity|]. cbn. rewrite E', Q'. auto 10.
    + destruct (IH l WL NL SA) as (t' & -> & W' & N' & E' & Q'). eexists. split; [reflexivity|]. cbn. rewrite E', Q'. auto 10.
Qed.
Lemma sub_ok q : forall t s, wt t -> nob t -> sub_at t q = Some s -> wt s /\ nob s.
Proof.
  induction q as [|d q IH]; intros t s W N SA; [destruct t; cbn in SA; injection SA as <-; auto|].
  destruct t as [|l x w m b r]; [destruct d; discriminate|]. destruct W as (WL & WR & ->). destruct N as (NL & NR & -> & ->).
  destruct d; cbn in SA; eauto.
Qed.
End P.
