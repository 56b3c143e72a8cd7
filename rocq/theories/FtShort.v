(** The shortcut into the rightmost leaf. *)
From Verif Require Import Base Bytes LtSpec KOrd PivotModel PivotProofs FtModel FtSpec FtSeg FtRows FtInv FtPut FtOps FtOps3 FtQuery FtSys.
From Coq Require Import Sorted.
Open Scope nat_scope.
#[local] Existing Instance any_time.

Section Model.
Context {E : env} (is_del : L E -> bool).
Local Notation kcmp := (kcmp E).
Local Notation msg := (gmsg (A E)).
Local Notation slot := (slot E).
Local Notation leaf := (leaf E).
Local Notation tree := (tree E).

(** ft_leaf_leftmost_le_and_key, ft_leaf_rightmost_le_and_key
    (ft/ft-ops.cc:2043-2070): the first and last row of the leaf, in whichever
    basement node they are. *)
Definition leftmost (s : seg slot) : option (bytes * L E) := hd_error (all_rows s).
Definition rightmost (s : seg slot) : option (bytes * L E) := hd_error (rev (all_rows s)).

(** ft_leaf_get_relative_key_pos (ft/ft-ops.cc:2072-2141).  [None] is a negative
    position (-1); otherwise nondeleted_key_found and target_childnum, where
    [None] is the -1 that the caller has put there.  [is_del] is
    le_latest_is_del; [unique]: nondeleted_key_found is not null.  The
    invariant_notnull(leftmost_le) holds because there is a rightmost row. *)
Definition rel_pos (unique : bool) (k : bytes) (s : seg slot) : option (bool * option nat) :=
  let last := length (seg_list s) - 1 in
  match rightmost s with
  | None => None
  | Some (rk, rv) =>
    match kcmp k rk with
    | Gt => Some (false, Some last)
    | Eq => Some (unique && negb (is_del rv), Some last)
    | Lt =>
      match leftmost s with
      | None => None
      | Some (lk, lv) =>
        match kcmp k lk with
        | Gt =>
          if unique then
            match which_child kcmp (seg_pivots s) k with
            | None => None
            | Some i =>
              let found := match nth_error (seg_list s) i with
                           | Some x => match s_mem x with
                                       | Some b => match rows_find k (b_rows b) with Some v => negb (is_del v) | None => false end
                                       | None => false
                                       end
                           | None => false
                           end in
              Some (found, Some i)
            end
          else Some (false, None)
        | Eq => Some (unique && negb (is_del lv), Some 0)
        | Lt => None
        end
      end
    end
  end.

(** toku_ft_leaf_apply_msg (ft/node.cc:2069-2149) with a target_childnum, for a
    message with a key. *)
Definition leaf_put_at (tgt : option nat) (g : G E) (n : N) (m : msg) (l : leaf) : res leaf :=
  match tgt with
  | None => leaf_put g n m l
  | Some i =>
    check (forallb in_mem (seg_list (l_parts l)));
    let mx := if (l_max l <? n)%N then n else l_max l in
    match seg_upd None None i (fun _ _ s => Ok (One (slot_put g n m s), tt)) (l_parts l) with
    | Ok (p, _) => Ok (Leaf mx true p)
    | _ => Fail
    end
  end.

Inductive short_result := Inserted | KeyExist | NotDone.

Definition whole_leaf (l : leaf) : leaf := Leaf (l_max l) (l_dirty l) (seg_map (slot_fetch (l_max l)) (l_parts l)).

(** ft_maybe_insert_into_rightmost_leaf (ft/ft-ops.cc:2147-2230) and
    ft_insert_directly_into_leaf (2448-2459), once seqinsert_score has been
    found large enough.  The leaf is pinned by its block number: the nodes above
    it are neither locked nor looked at.  The leaf's reactivity only makes the
    function return -1 (which the caller may always do by not trying). *)
Fixpoint short (unique : bool) (g : G E) (n : N) (m : msg) (t : tree) : res (tree * short_result) :=
  match t with
  | TLeaf l =>
    let l := whole_leaf l in
    match rel_pos unique (m_key m) (l_parts l) with
    | None => Ok (TLeaf l, NotDone)
    | Some (true, _) => Ok (TLeaf l, KeyExist)
    | Some (false, tgt) => rdo l' <- leaf_put_at tgt g n m l; Ok (TLeaf l', Inserted)
    end
  | TNode mx lk ch =>
    rdo (ch', r) <-
      (fix go (s : seg (list (ent E) * tree)) : res (seg (list (ent E) * tree) * short_result) :=
         match s with
         | One x => rdo (t', r) <- short unique g n m (snd x); Ok (One (fst x, t'), r)
         | Cons x p s => rdo (s', r) <- go s; Ok (Cons x p s', r)
         end) ch;
    Ok (TNode mx lk ch', r)
  end.

End Model.

(** ** When the shortcut is right *)
Section P.
Context {E : env} (ok : cmp_ok (kcmp E)) (is_del : L E -> bool).
Local Notation c := (kcmp E).
Local Notation msg := (gmsg (A E)).
Local Notation slot := (slot E).
Local Notation leaf := (leaf E).
Local Notation tree := (tree E).

(** The last child's buffer is empty, down to the leaf. *)
Fixpoint clear_right (t : tree) : Prop :=
  match t with
  | TLeaf _ => True
  | TNode _ _ ch =>
    (fix go (s : seg (list (ent E) * tree)) : Prop :=
       match s with One x => fst x = [] /\ clear_right (snd x) | Cons _ _ s => go s end) ch
  end.
Fixpoint right_leaf (t : tree) : leaf :=
  match t with
  | TLeaf l => l
  | TNode _ _ ch =>
    (fix go (s : seg (list (ent E) * tree)) : leaf :=
       match s with One x => right_leaf (snd x) | Cons _ _ s => go s end) ch
  end.
Definition has_rows (x : slot) : Prop := match s_mem x with Some b => b_rows b <> [] | None => s_disk x <> [] end.
(** The first and the last basement node have rows. *)
Definition edges (l : leaf) : Prop :=
  (forall x, hd_error (seg_list (l_parts l)) = Some x -> has_rows x) /\
  (forall x, hd_error (rev (seg_list (l_parts l))) = Some x -> has_rows x).

Lemma last_spec {C} (P : bound -> bound -> C -> Prop) s : forall lo, seg_all c P lo None s ->
  exists lo' x l0, seg_list s = l0 ++ [x] /\ P lo' None x /\ sub c lo' None lo None /\
    forall k, in_rng c lo' None k -> first_true (fun p => kleb c k p) (seg_pivots s) (length l0).
Proof.
  induction s as [a|a p s IH]; intros lo SA; cbn [seg_all] in SA.
  - destruct SA as (B & SA). exists lo, a, []. split; [reflexivity|]. split; [exact SA|]. split; [apply sub_refl|]. intros k _. cbn. split; [auto|]. split; [intros j q J; lia|]. intros q [=].
  - destruct SA as (B & SA & SA'). destruct (IH _ SA') as (lo' & x & l0 & E1 & Px & Sx & F). exists lo', x, (a :: l0).
    split; [cbn; rewrite E1; reflexivity|]. split; [exact Px|]. split; [eapply sub_trans; [exact Sx|]; apply (sub_right ok); exact B|].
    intros k R. cbn [seg_pivots length]. apply first_true_cons. split; [|apply F; exact R]. apply Sx in R. destruct R as (R & _). destruct (kleb c k p) eqn:Q; [|reflexivity]. exfalso. apply kleb_true in Q. kord ok.
Qed.
Lemma first_spec {C} (P : bound -> bound -> C -> Prop) s : forall lo hi, seg_all c P lo hi s ->
  exists hi' x l1, seg_list s = x :: l1 /\ P lo hi' x /\ forall k, in_rng c lo hi' k -> first_true (fun p => kleb c k p) (seg_pivots s) 0.
Proof.
  destruct s as [a|a p s]; intros lo hi SA; cbn [seg_all] in SA.
  - destruct SA as (B & SA). exists hi, a, []. split; [reflexivity|]. split; [exact SA|]. intros k _. cbn. split; [auto|]. split; [intros j q J; lia|]. intros q [=].
  - destruct SA as (B & SA & SA'). exists (Some p), a, (seg_list s). split; [reflexivity|]. split; [exact SA|]. intros k (_ & R). cbn [seg_pivots]. apply first_true_cons. apply kleb_true. exact R.
Qed.
Lemma ft_unique (f : bytes -> bool) pv i j : first_true f pv i -> first_true f pv j -> i = j.
Proof.
  intros (A1 & A2 & A3) (B1 & B2 & B3). destruct (Nat.lt_trichotomy i j) as [LT|[?|GT]]; auto; exfalso.
  - destruct (nth_error pv i) as [q|] eqn:N; [|apply nth_error_None in N; lia]. specialize (A3 q eq_refl). specialize (B2 i q LT N). congruence.
  - destruct (nth_error pv j) as [q|] eqn:N; [|apply nth_error_None in N; lia]. specialize (B3 q eq_refl). specialize (A2 j q GT N). congruence.
Qed.
Lemma wc_first k (pv : list bytes) i : psorted (c:=c) pv -> first_true (fun p => kleb c k p) pv i -> which_child c pv k = Some i.
Proof. intros S F. destruct (which_child_ok ok k pv S) as (j & W & F'). rewrite W. f_equal. eapply ft_unique; eauto. Qed.

Lemma all_rows_In (P : bound -> bound -> slot -> Prop) s : (forall lo hi x b, P lo hi x -> s_mem x = Some b -> rin lo hi (b_rows b)) -> forall lo hi, seg_all c P lo hi s ->
  forall kv, In kv (all_rows s) -> in_rng c lo hi (fst kv).
Proof.
  intros PR lo hi SA kv I. unfold all_rows in I. apply in_flat_map in I. destruct I as (x & Ix & I).
  destruct (seg_all_In ok _ _ _ _ x SA Ix) as (lo' & hi' & Sx & Px). destruct (s_mem x) as [b|] eqn:M; [|contradiction].
  specialize (PR _ _ _ _ Px M). unfold rin in PR. rewrite Forall_forall in PR. auto.
Qed.

(** The target basement node is the one of the key. *)
Lemma rel_pos_ok H top lo pend (l : leaf) unique k b tgt : leaf_ok H top lo None pend pend l -> (forall x, In x (seg_list (l_parts l)) -> s_mem x <> None) -> edges l ->
  rel_pos is_del unique k (l_parts l) = Some (b, tgt) ->
  in_rng c lo None k /\ match tgt with Some i => which_child c (seg_pivots (l_parts l)) k = Some i | None => True end.
Proof.
  intros (_ & _ & SA & _) IM (EL & ER) Q. set (s := l_parts l) in *.
  assert (PR : forall lo hi (x : slot) b, slot_ok H top pend (l_max l) (l_dirty l) lo hi x -> s_mem x = Some b -> rin lo hi (b_rows b)).
  { intros lo0 hi0 x b0 (K & _) M. rewrite M in K. destruct K as (((_ & R & _) & _) & _). exact R. }
  pose proof (seg_all_psorted ok _ _ _ _ SA) as (PS & _).
  pose proof (all_rows_In _ s PR lo None SA) as AR.
  destruct (last_spec _ s lo SA) as (lo1 & x1 & l0 & E1 & P1 & S1 & F1).
  destruct (first_spec _ s lo None SA) as (hi2 & x2 & l2 & E2 & P2 & F2).
  assert (NE1 : exists b1 r1 kv, s_mem x1 = Some b1 /\ b_rows b1 = r1 ++ [kv]).
  { destruct (s_mem x1) as [b1|] eqn:M; [|exfalso; apply (IM x1); [rewrite E1; apply in_or_app; cbn; auto|exact M]].
    specialize (ER x1). fold s in ER. rewrite E1, rev_app_distr in ER. specialize (ER eq_refl). unfold has_rows in ER. rewrite M in ER.
    destruct (exists_last ER) as (r1 & kv & Z). eauto. }
  assert (NE2 : exists b2 kv r2, s_mem x2 = Some b2 /\ b_rows b2 = kv :: r2).
  { destruct (s_mem x2) as [b2|] eqn:M; [|exfalso; apply (IM x2); [rewrite E2; cbn; auto|exact M]].
    specialize (EL x2). fold s in EL. rewrite E2 in EL. specialize (EL eq_refl). unfold has_rows in EL. rewrite M in EL. destruct (b_rows b2) as [|kv r2] eqn:RB; [congruence|]. exists b2, kv, r2. auto. }
  destruct NE1 as (b1 & r1 & [rk rv] & M1 & R1). destruct NE2 as (b2 & [lk lv] & r2 & M2 & R2).
  assert (RM : rightmost s = Some (rk, rv)).
  { unfold rightmost, all_rows. rewrite E1, flat_map_app. cbn [flat_map]. rewrite M1, R1, app_nil_r, app_assoc, rev_app_distr. reflexivity. }
  assert (LM : leftmost s = Some (lk, lv)). { unfold leftmost, all_rows. rewrite E2. cbn [flat_map]. rewrite M2, R2. reflexivity. }
  assert (RK : in_rng c lo1 None rk). { pose proof (PR _ _ _ _ P1 M1) as Z. rewrite R1 in Z. unfold rin in Z. rewrite Forall_forall in Z. apply (Z (rk, rv)). apply in_or_app; cbn; auto. }
  assert (LK : in_rng c lo hi2 lk). { pose proof (PR _ _ _ _ P2 M2) as Z. rewrite R2 in Z. unfold rin in Z. rewrite Forall_forall in Z. apply (Z (lk, lv)). cbn; auto. }
  assert (UP : forall a d lo0, in_rng c lo0 None a -> kle c a d -> in_rng c lo0 None d). { intros a d [l3|] (Z & _) KL; split; cbn; auto. kord ok. }
  assert (LEN : length (seg_list s) - 1 = length l0). { rewrite E1, app_length. cbn. lia. }
  unfold rel_pos in Q. rewrite RM, LM in Q. destruct (c k rk) eqn:C1; [change (keq c k rk) in C1|change (klt c k rk) in C1|apply (gt_klt ok) in C1].
  - injection Q as <- <-. assert (K1 : in_rng c lo1 None k). { eapply UP; [exact RK|]. kord ok. } split; [apply S1; exact K1|]. apply wc_first; auto. rewrite LEN. auto.
  - destruct (c k lk) eqn:C2; [change (keq c k lk) in C2| |apply (gt_klt ok) in C2].
    + injection Q as <- <-. assert (LK' : in_rng c lo hi2 k). { eapply (in_rng_keq ok); [|exact LK]. kord ok. }
      split; [split; [apply LK'|exact Logic.I]|]. apply wc_first; auto.
    + discriminate.
    + assert (K2 : in_rng c lo None k). { apply (UP lk). split; [apply LK|exact Logic.I]. kord ok. }
      destruct unique; [|injection Q as <- <-; auto]. destruct (which_child c (seg_pivots s) k) as [i|]; [|discriminate]. injection Q as <- <-. auto.
  - injection Q as <- <-. assert (K1 : in_rng c lo1 None k). { eapply UP; [exact RK|]. kord ok. } split; [apply S1; exact K1|]. apply wc_first; auto. rewrite LEN. auto.
Qed.

Lemma leaf_put_at_ok tgt (g : G E) n m (l : leaf) : once m = true -> match tgt with Some i => which_child c (seg_pivots (l_parts l)) (m_key m) = Some i | None => True end ->
  leaf_put_at tgt g n m l = leaf_put g n m l.
Proof. intros O W. destruct tgt as [i|]; [|reflexivity]. unfold leaf_put_at, leaf_put. rewrite O, W. reflexivity. Qed.

(** What the shortcut reports about the key. *)
Lemma slot_at {C} (P : bound -> bound -> C -> Prop) s : forall lo hi k i, seg_all c P lo hi s -> in_rng c lo hi k -> first_true (fun p => kleb c k p) (seg_pivots s) i ->
  exists lo' hi' x, nth_error (seg_list s) i = Some x /\ P lo' hi' x /\ in_rng c lo' hi' k.
Proof.
  induction s as [a|a p s IH]; intros lo hi k i SA R F; cbn [seg_all] in SA; cbn [seg_pivots seg_list] in *.
  - destruct SA as (B & SA). destruct F as (LE & _). cbn in LE. assert (i = 0) as -> by lia. exists lo, hi, a. auto.
  - destruct SA as (B & SA & SA'). apply first_true_cons in F. destruct i as [|i].
    + exists lo, (Some p), a. split; [reflexivity|]. split; [exact SA|]. split; [apply R|]. cbn. apply kleb_true. exact F.
    + destruct F as (F1 & F2). destruct (IH (Some p) hi k i SA') as (lo' & hi' & x & Q); auto. split; [|apply R]. cbn. kord ok. eauto.
Qed.
Lemma rows_find_In k (r : rows E) x v : rsorted r -> In (x, v) r -> keq c k x -> rows_find k r = Some v.
Proof.
  induction r as [|[y w] r IH]; intros S I K; [contradiction|]. apply rsorted_cons in S. destruct S as (F & S). cbn. destruct I as [[= -> ->]|I].
  - rewrite (proj2 (keqb_true _ _) K). reflexivity.
  - rewrite Forall_forall in F. specialize (F _ I). cbn in F. destruct (keqb c k y) eqn:Q; [|auto]. apply keqb_true in Q. exfalso. kord ok.
Qed.
Definition exists_live (r : option (L E)) : bool := match r with Some v => negb (is_del v) | None => false end.
Lemma rel_pos_found H top lo (l : leaf) k b tgt : hist_ok H top -> leaf_ok H top lo None [] [] l -> (forall x, In x (seg_list (l_parts l)) -> s_mem x <> None) ->
  rel_pos is_del true k (l_parts l) = Some (b, tgt) -> exists r, outcome k (map snd H) r /\ b = exists_live r.
Proof.
  intros HO (_ & _ & SA & _) IM Q. set (s := l_parts l) in *.
  assert (SV : seg_all c (fun lo hi x => exists b, s_mem x = Some b /\ view H lo hi [] 0 (b_rows b)) lo None s).
  { apply (seg_all_with_In ok) in SA. eapply seg_all_impl; [exact ok|exact SA|]. intros lo' hi' x _ ((K & _) & Ix). specialize (IM x Ix).
    destruct (s_mem x) as [b0|]; [|congruence]. exists b0. split; [reflexivity|]. destruct K as ((V & _) & _). eapply view_ext; [exact ok|exact V|]. intros n m _ _. unfold todo, mem. split; intros (_ & e & [] & _). }
  pose proof (view_concat ok _ _ _ _ _ _ SV) as (RS & RI & KV).
  assert (D : forall r, key_ok H k (todo (E:=E) [] 0) r -> outcome k (map snd H) r). { intros r KO. eapply ko_done; [exact KO|]. intros n m _ _ (_ & e & [] & _). }
  pose proof (seg_all_psorted ok _ _ _ _ SA) as (PS & _). unfold rin in RI. rewrite Forall_forall in RI.
  assert (UP : forall a d lo0, in_rng c lo0 None a -> kle c a d -> in_rng c lo0 None d). { intros a d [l3|] (Z & _) KL; split; cbn; auto. cbn in Z. kord ok. }
  unfold rel_pos, rightmost, leftmost in Q. destruct (rev (all_rows s)) as [|[rk rv] rest] eqn:RV; [discriminate|]. cbn [hd_error] in Q.
  assert (AR : all_rows s = rev rest ++ [(rk, rv)]). { rewrite <- (rev_involutive (all_rows s)), RV. reflexivity. }
  assert (IR : In (rk, rv) (all_rows s)) by (rewrite AR; apply in_or_app; cbn; auto). pose proof (RI _ IR) as RR. cbn in RR.
  destruct (c k rk) eqn:C1; [change (keq c k rk) in C1|change (klt c k rk) in C1|apply (gt_klt ok) in C1].
  - injection Q as <- <-. exists (Some rv). split; [|reflexivity]. apply D. rewrite <- (rows_find_In k _ rk rv RS IR C1). apply KV. apply (UP rk); auto. kord ok.
  - destruct (all_rows s) as [|[lk lv] more] eqn:AL; [discriminate|]. cbn [hd_error] in Q.
    assert (IL : In (lk, lv) ((lk, lv) :: more)) by (cbn; auto). pose proof (RI _ IL) as RL. cbn in RL.
    destruct (c k lk) eqn:C2; [change (keq c k lk) in C2|discriminate|apply (gt_klt ok) in C2].
    + injection Q as <- <-. exists (Some lv). split; [|reflexivity]. apply D. rewrite <- (rows_find_In k _ lk lv RS IL C2). apply KV. apply (UP lk); auto. kord ok.
    + assert (K2 : in_rng c lo None k) by (apply (UP lk); auto; kord ok).
      destruct (which_child_ok ok k _ PS) as (i & W & F). rewrite W in Q. destruct (slot_at _ _ _ _ _ _ SV K2 F) as (lo' & hi' & x & N & (b0 & M & V) & R).
      rewrite N, M in Q. injection Q as <- <-. exists (rows_find k (b_rows b0)). split; [apply D; apply V; exact R|]. unfold exists_live. destruct (rows_find k (b_rows b0)); reflexivity.
  - injection Q as <- <-. exists None. split; [|reflexivity]. apply D. rewrite <- (rows_find_lt ok k (all_rows s)).
    + apply KV. apply (UP rk); auto. kord ok.
    + rewrite AR in *. apply rsorted_app in RS. destruct RS as (_ & _ & LT). apply Forall_app. split; [|constructor; auto]. apply Forall_forall. intros y Iy. specialize (LT y (rk, rv) Iy (or_introl eq_refl)). cbn in LT. kord ok.
Qed.

(** The whole function. *)
Lemma whole_mem (l : leaf) x : In x (seg_list (l_parts (whole_leaf l))) -> s_mem x <> None.
Proof. cbn. rewrite seg_list_map, in_map_iff. intros (y & <- & _). unfold slot_fetch. destruct (s_mem y) eqn:M; [congruence|cbn; congruence]. Qed.

Lemma short_ok H top unique g m : hist_ok H top -> once m = true -> let n := (top + 1)%N in forall h lo t,
  blt c lo None -> wf H top h lo None [] t -> clear_right t -> edges (whole_leaf (right_leaf t)) ->
  outc (short is_del unique g n m t) (fun x =>
    (unique = true -> snd x <> NotDone -> exists r, outcome (m_key m) (map snd H) r /\ exists_live r = match snd x with KeyExist => true | _ => false end) /\
    match snd x with
    | Inserted => in_rng c lo None (m_key m) /\ wf (H ++ [(n, m)]) n h lo None [] (fst x)
    | _ => wf H top h lo None [] (fst x)
    end).
Proof.
  intros HO O n. assert (LT : (top < n)%N) by (unfold n; lia). clearbody n. pose proof (hist_grow H top n m HO LT) as HO'.
  induction h as [|h IH]; intros lo [l|mx lk ch] B W CR ED; try contradiction.
  - cbn [short]. cbn [right_leaf] in ED. cbn [wf] in W. pose proof (leaf_fetch_ok ok _ _ _ _ _ _ _ W) as W1. fold (whole_leaf l) in W1. pose proof (whole_mem l) as WM.
    remember (whole_leaf l) as l1 eqn:EL1. cbv zeta.
    destruct (rel_pos is_del unique (m_key m) (l_parts l1)) as [[b tgt]|] eqn:RP; [|cbn; split; [congruence|exact W1]].
    destruct (rel_pos_ok _ _ _ _ _ _ _ _ _ W1 WM ED RP) as (RK & TG).
    assert (FD : unique = true -> exists r, outcome (m_key m) (map snd H) r /\ b = exists_live r). { intros ->. eapply rel_pos_found; eauto. }
    destruct b.
    + cbn. split; [|exact W1]. intros U _. destruct (FD U) as (r & Q1 & Q2). eauto.
    + rewrite leaf_put_at_ok by auto.
      assert (GR : grown n m lo None [] [Ent n m Fresh]). { split; [intros e [<-|[]]; auto|]. split; [intros e []|]. intros _. cbn. auto. }
      pose proof (wf_grow ok H top n m HO LT 0 lo None [] [Ent n m Fresh] (TLeaf l1) W1 GR) as W'. cbn [wf] in W'.
      assert (DD : leaf_ok (H ++ [(n, m)]) n lo None [Ent n m Fresh] [] (Leaf (l_max l1) true (l_parts l1))).
      { eapply leaf_dirty; [exact W'| |intros e []]. intros x Ix. specialize (WM x Ix). unfold in_mem. destruct (s_mem x); congruence. }
      destruct (leaf_put_ok ok (H ++ [(n, m)]) n lo None (Ent n m Fresh) [] [] g _ HO' DD eq_refl (or_intror RK)) as (l2 & P1 & P2 & P3 & _).
      * intros e' [].
      * intros e' [].
      * apply any_fits.
      * assert (EQ : leaf_put g n m l1 = leaf_put g n m (Leaf (l_max l1) true (l_parts l1))) by reflexivity.
        cbn [e_msn e_msg] in P1. rewrite EQ, P1. cbn. split; [|auto]. intros U _. destruct (FD U) as (r & Q1 & Q2). eauto.
  - cbn [short]. cbn [wf] in W. destruct W as (T & I & M & CH & S). cbn [clear_right] in CR. cbn [right_leaf] in ED.
    match goal with |- outc (match ?go ch with _ => _ end) _ => set (gof := go) in * end.
    match type of CR with ?f ch => set (cr := f) in * end.
    match type of ED with edges (whole_leaf (?f ch)) => set (rl := f) in * end.
    assert (K : forall s lo, seg_all c (fun lo hi x => buf_ok H lo hi mx (fst x) /\ wf H top h lo hi (fst x ++ []) (snd x)) lo None s -> cr s -> edges (whole_leaf (rl s)) ->
      outc (gof s) (fun x =>
        (unique = true -> snd x <> NotDone -> exists r, outcome (m_key m) (map snd H) r /\ exists_live r = match snd x with KeyExist => true | _ => false end) /\
        match snd x with
        | Inserted => in_rng c lo None (m_key m) /\ seg_all c (fun lo hi x => buf_ok (H ++ [(n, m)]) lo hi mx (fst x) /\ wf (H ++ [(n, m)]) n h lo hi (fst x ++ []) (snd x)) lo None (fst x)
        | _ => seg_all c (fun lo hi x => buf_ok H lo hi mx (fst x) /\ wf H top h lo hi (fst x ++ []) (snd x)) lo None (fst x)
        end)).
    { induction s as [[bf u]|[bf u] p s IHs]; intros lo0 SA CRs EDs; cbn [seg_all fst snd] in SA.
      - destruct SA as (B0 & K1 & K2). cbn in CRs, EDs. destruct CRs as (-> & CRs). cbn [app] in K2. specialize (IH lo0 u B0 K2 CRs EDs). cbn.
        destruct (short is_del unique g n m u) as [[u' r]| |]; cbn in *; auto. destruct IH as (F & IH). split; [exact F|]. destruct r; cbn [seg_all fst snd app] in *.
        + destruct IH as (R & IH). split; [exact R|]. split; [exact B0|]. split; [apply buf_nil|exact IH].
        + auto.
        + auto.
      - destruct SA as (B0 & (K1 & K2) & SA). specialize (IHs _ SA CRs EDs). cbn. fold gof. destruct (gof s) as [[s' r]| |]; cbn in *; auto. destruct IHs as (F & IHs). split; [exact F|]. destruct r; cbn [seg_all fst snd] in *.
        + destruct IHs as (R & IHs). split; [split; [|exact Logic.I]; destruct lo0; cbn in *; auto; destruct R; kord ok|]. split; [exact B0|]. split; [|exact IHs].
          assert (NR : ~ in_rng c lo0 (Some p) (m_key m)). { intros (_ & Q). destruct R as (R & _). cbn in *. kord ok. }
          split.
          * destruct K1 as (K1 & K1'). split; [exact K1|]. intros e Ie. destruct (K1' e Ie) as (Q1 & Q2 & Q3). split; [apply in_or_app; auto|]. auto.
          * eapply (wf_grow ok); [exact HO|exact LT|exact K2|]. split; [auto|]. split; [auto|]. intros [Q|Q]; [congruence|contradiction].
        + auto.
        + auto. }
    specialize (K ch lo S CR ED). destruct (gof ch) as [[ch' r]| |]; cbn in *; auto. destruct K as (F & K). split; [exact F|]. destruct r; cbn [fst snd] in *.
    + destruct K as (R & K). split; [exact R|]. split; [lia|]. split; [intros e []|]. split; [intros e []|]. split; [intros _ e []|exact K].
    + split; [exact T|]. split; [intros e []|]. split; [intros e []|]. split; [intros _ e []|exact K].
    + split; [exact T|]. split; [intros e []|]. split; [intros e []|]. split; [intros _ e []|exact K].
Qed.
End P.
