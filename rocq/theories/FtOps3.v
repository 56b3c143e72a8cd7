(** The invariant is kept by writes, evictions, new roots and injections. *)
From Verif Require Import Base Bytes LtSpec KOrd LtTreeProofs FtModel FtSpec FtSeg FtRows FtInv FtPut FtOps.
From Coq Require Import Sorted.
Open Scope nat_scope.

Section O.
Context {E : env} {TM : timing E} (ok : cmp_ok (kcmp E)).
Local Notation c := (kcmp E).
Local Notation L := (L E).
Local Notation G := (G E).
Local Notation msg := (gmsg (A E)).
Local Notation rows := (rows E).
Local Notation ent := (ent E).
Local Notation slot := (slot E).
Local Notation leaf := (leaf E).
Local Notation tree := (tree E).
Implicit Types (pend : list ent) (t : tree).

(** ** Writing a leaf *)
Lemma view_concat H pend mx (s : seg slot) : forall lo hi,
  seg_all c (fun lo hi x => exists b, s_mem x = Some b /\ view H lo hi pend mx (b_rows b)) lo hi s -> view H lo hi pend mx (all_rows s).
Proof.
  induction s as [a|a p s IH]; intros lo hi K; cbn [seg_all] in K.
  - destruct K as (_ & b & M & V). unfold all_rows. cbn. rewrite M, app_nil_r. exact V.
  - destruct K as (B & (b & M & (S1 & R1 & V1)) & K). pose proof (seg_all_blt ok _ _ _ _ K) as B2. destruct (IH _ _ K) as (S2 & R2 & V2).
    assert (EQ : all_rows (Cons a p s) = b_rows b ++ all_rows s) by (unfold all_rows; cbn; rewrite M; reflexivity). rewrite EQ.
    pose proof R1 as R1'. pose proof R2 as R2'. unfold rin in R1', R2'. rewrite Forall_forall in R1', R2'.
    split; [|split].
    + apply rsorted_app; auto. split; [exact S1|]. split; [exact S2|]. intros x y Ix Iy. destruct (R1' x Ix) as (_ & Q1). destruct (R2' y Iy) as (Q2 & _). cbn in *. kord ok.
    + unfold rin. rewrite Forall_app. split.
      * eapply Forall_impl; [|exact R1]. intros x. apply (sub_left ok); auto.
      * eapply Forall_impl; [|exact R2]. intros x. apply (sub_right ok); auto.
    + intros k Rk. rewrite rows_find_app. destruct (in_rng_split ok _ _ _ _ B B2 Rk) as [R|R].
      * rewrite (rows_find_out ok (Some p) hi k (all_rows s)); [|exact R2|apply (disj_left ok lo p hi); exact R].
        specialize (V1 k R). destruct (rows_find k (b_rows b)); exact V1.
      * rewrite (rows_find_out ok lo (Some p) k (b_rows b)); [|exact R1|].
        -- apply V2; auto.
        -- intros R'. apply (disj_left ok lo p hi k R' R).
Qed.

Lemma max_of_spec (s : seg slot) : forall B,
  (forall x b, In x (seg_list s) -> s_mem x = Some b -> (b_max b <= max_of s)%N) /\
  (maxes (fun m => (m < B)%N) (seg_list s) -> (0 < B)%N -> (max_of s < B)%N).
Proof.
  intros B. unfold max_of. assert (K : forall l a, (a <= fold_left (fun a x => match s_mem x with Some b => N.max a (b_max b) | None => a end) l a)%N /\
    (forall x b, In x l -> s_mem x = Some b -> (b_max b <= fold_left (fun a (x : slot) => match s_mem x with Some b => N.max a (b_max b) | None => a end) l a)%N) /\
    (maxes (fun m => (m < B)%N) l -> (a < B)%N -> (fold_left (fun a (x : slot) => match s_mem x with Some b => N.max a (b_max b) | None => a end) l a < B)%N)).
  { induction l as [|x l IH]; intros a; cbn.
    - split; [lia|]. split; [intros ? ? []|auto].
    - specialize (IH (match s_mem x with Some b => N.max a (b_max b) | None => a end)). destruct IH as (I1 & I2 & I3). split; [|split].
      + destruct (s_mem x); lia.
      + intros y b [<-|Iy] M; [|eauto]. rewrite M in I1 |- *. lia.
      + intros MX LA. apply I3; [intros y b Iy; apply MX; cbn; auto|]. destruct (s_mem x) as [b|] eqn:M; auto. specialize (MX x b (or_introl eq_refl) M). cbn in MX. lia. }
  destruct (K (seg_list s) 0%N) as (_ & K2 & K3). split; auto.
Qed.

(** Garbage collection may be run under a node with [pend] above it. *)
Definition gc_fits (H : hist) pend (o : option G) : Prop :=
  forall g, o = Some g -> fresh_info H g /\ forall e, In e pend -> early g (e_msn e).

Lemma rebalance_ok H top pend mx gd : gc_fits H pend gd -> (mx <= top)%N -> forall cuts r lo hi, blt c lo hi -> view H lo hi pend mx r ->
  outc (rebalance gd mx cuts r) (fun s => seg_all c (slot_ok H top pend mx false) lo hi s /\ forall x b, In x (seg_list s) -> s_mem x = Some b -> b_max b = mx).
Proof.
  intros GF T. assert (SL : forall lo hi r, view H lo hi pend mx r -> slot_ok H top pend mx false lo hi (new_slot gd mx r)).
  { intros lo hi r V. split; cbn.
    - split; [|lia]. split; [exact V|]. split; [exact T|discriminate].
    - intros _. apply (view_gc ok); [exact GF|exact V]. }
  induction cuts as [|n cuts IH]; intros r lo hi B V; cbn [rebalance].
  - cbn. split; [split; [exact B|apply SL; exact V]|]. intros x b [<-|[]]. cbn. intros [= <-]. reflexivity.
  - destruct (Nat.ltb_spec 0 n); cbn [andb]; [|exact Logic.I]. destruct (Nat.ltb_spec n (length r)); [|exact Logic.I].
    assert (BO : bn_ok H top lo hi pend (Bn r mx false)) by (split; [exact V|split; [exact T|discriminate]]).
    destruct (rows_cut ok H top lo hi pend r mx false n BO) as (k & LK & B1 & B2 & K1 & K2); [lia|]. rewrite LK.
    specialize (IH (skipn n r) (Some k) hi B2 (proj1 (K2 false (fun x => x)))).
    destruct (rebalance gd mx cuts (skipn n r)) as [s| |]; cbn [outc] in *; auto. destruct IH as (I1 & I2). cbn [seg_all seg_list]. split.
    + split; [exact B1|]. split; [apply SL; exact (proj1 (K1 false (fun x => x)))|exact I1].
    + intros x b [<-|Ix]; [cbn; intros [= <-]; reflexivity|eauto].
Qed.

Lemma write_good gm gd cuts : goodc (fun H pend _ => gc_fits H pend gm /\ gc_fits H pend gd) (fun _ _ _ t => write_leaf gm gd cuts t).
Proof.
  intros H top h lo hi pend [l|mx lk ch] HO B W (GM & GD); cbn [write_leaf]; [|exact Logic.I]. destruct h; [|contradiction].
  destruct (l_dirty l) eqn:D; [|exact Logic.I]. destruct W as (I & T & S & EC). rewrite D in S. specialize (EC D).
  rewrite (proj2 (forallb_In in_mem _)) by (intros x Ix; eapply (dirty_all_mem ok); eauto).
  cbv zeta. set (mx := max_of (l_parts l)).
  assert (TMX : (mx <= top)%N).
  { destruct (max_of_spec (l_parts l) (top + 1)%N) as (_ & K). fold mx in K. assert (mx < top + 1)%N; [|lia]. apply K; [|lia].
    intros x b Ix M. destruct (seg_all_In ok _ _ _ _ _ S Ix) as (lo' & hi' & _ & K1 & _). rewrite M in K1. destruct K1 as ((_ & Q & _) & _). lia. }
  assert (V : view H lo hi pend mx (all_rows (l_parts l))).
  { apply view_concat. apply (seg_all_with_In ok) in S. eapply (seg_all_impl ok); [exact S|]. cbn. intros lo' hi' x Sx (K & Ix).
    destruct (slot_dirty_inv _ _ _ _ _ _ _ K) as (b & M & (V & TB & _)). exists b. split; [exact M|].
    eapply (view_ext ok); [exact V|]. intros n m In_ R. unfold todo. split; intros (Q1 & e & Ie & <-).
    - split; [|exists e; auto]. assert (R' : rel lo hi (e_msg e)). { rewrite <- (hist_unique _ _ _ _ _ HO In_ (I _ Ie)). eapply rel_sub; eauto. }
      destruct (EC e Ie R') as [Q|Q]; [specialize (Q x b Ix M); lia|]. destruct (max_of_spec (l_parts l) (e_msn e)) as (_ & K2). apply K2; [exact Q|lia].
    - split; [|exists e; auto]. destruct (max_of_spec (l_parts l) 0%N) as (K2 & _). specialize (K2 x b Ix M). fold mx in K2. lia. }
  apply (view_gc ok _ _ _ _ _ _ gm GM) in V.
  pose proof (rebalance_ok H top pend mx gd GD TMX cuts _ lo hi B V) as RB.
  destruct (rebalance gd mx cuts (gc_rows gm (all_rows (l_parts l)))) as [s| |]; cbn [outc] in *; auto. destruct RB as (R1 & R2). split.
  - split; [exact I|]. split; [exact TMX|]. split; [exact R1|discriminate].
  - split; [intros; exact Logic.I|]. intros B0 _. rewrite !seen_leaf. cbn [l_max l_parts]. intros (Q1 & Q2).
    assert (LM : (mx < B0)%N) by (destruct (max_of_spec (l_parts l) B0) as (_ & K); apply K; [exact Q2|lia]).
    split; [exact LM|]. intros x b Ix M. rewrite (R2 x b Ix M). exact LM.
Qed.

(** ** Partial eviction and partial fetch *)
Lemma leaf_upd H top lo hi pend (l : leaf) j (f : slot -> slot) : leaf_ok H top lo hi pend pend l ->
  (l_dirty l = true -> forall x, in_mem x = true -> f x = x) ->
  (forall lo' hi' x, slot_ok H top pend (l_max l) (l_dirty l) lo' hi' x -> slot_ok H top pend (l_max l) (l_dirty l) lo' hi' (f x)) ->
  (forall B x, (l_max l < B)%N -> slot_seen B x -> slot_seen B (f x)) ->
  outc (rdo (s, _) <- seg_upd None None j (fun _ _ x => Ok (One (f x), tt)) (l_parts l); Ok (TLeaf (Leaf (l_max l) (l_dirty l) s)))
    (fun t' => wf H top 0 lo hi pend t' /\ kept (TLeaf l) t').
Proof.
  intros (I & T & S & EC) FD FS FN. rewrite (seg_upd_bounds (fun x => Ok (One (f x), tt)) (l_parts l) None None lo hi j).
  destruct (seg_upd lo hi j (fun _ _ x => Ok (One (f x), tt)) (l_parts l)) as [[s []]| |] eqn:U; cbn [outc]; auto.
  - destruct (seg_upd_all ok _ _ _ _ _ _ _ _ S U) as (lo' & hi' & a & sa & N1 & Sa & Ba & Pa & Fa & IN & K). injection Fa as <-.
    apply nth_error_In in N1. split.
    + split; [exact I|]. split; [exact T|]. cbn [l_max l_dirty l_parts]. split.
      * apply K; [auto|]. split; [exact Ba|]. apply FS. exact Pa.
      * intros D e Ie R. specialize (EC D e Ie R). assert (IN' : forall x, In x (seg_list s) -> In x (seg_list (l_parts l))).
        { intros x Ix. destruct (IN x Ix) as [|[<-|[]]]; auto. rewrite FD; auto. rewrite D in S. eapply (dirty_all_mem ok); eauto. }
        destruct EC as [EC|EC]; [left|right]; intros x b Ix M; eauto.
    + split; [intros; exact Logic.I|]. intros B _ (Q1 & Q2). split; [exact Q1|]. cbn [l_parts]. intros x Ix. destruct (IN x Ix) as [|[<-|[]]]; auto.
  - destruct (seg_upd_fail ok _ _ _ _ _ _ S U) as (? & ? & ? & _ & _ & _ & _ & Q). discriminate.
Qed.

Lemma evict_good j : good (fun _ _ _ t => evict_bn j t).
Proof.
  intros H top h lo hi pend [l|mx lk ch] HO B W; cbn [evict_bn]; [|exact Logic.I]. destruct h; [|contradiction].
  destruct (l_dirty l) eqn:D; cbn [negb]; [exact Logic.I|].
  pose proof (leaf_upd H top lo hi pend l j (fun x => Slot None (s_disk x)) W) as K. rewrite D in K. apply K; auto.
  - congruence.
  - intros lo' hi' x (K1 & K2). split; cbn; auto.
  - intros B0 x _ _ b. cbn. discriminate.
Qed.
Lemma fetch_good j : good (fun _ _ _ t => fetch_bn j t).
Proof.
  intros H top h lo hi pend [l|mx lk ch] HO B W; cbn [fetch_bn]; [|exact Logic.I]. destruct h; [|contradiction].
  apply (leaf_upd H top lo hi pend l j (slot_fetch (l_max l))); auto.
  - intros D x M. unfold in_mem in M. unfold slot_fetch. destruct (s_mem x); congruence.
  - intros. apply slot_fetch_ok; auto. apply W.
  - intros. apply slot_fetch_seen; auto.
Qed.

(** ** Marks *)
Definition restale (e : ent) : ent := Ent (e_msn e) (e_msg e) (match e_tag e with Marked => Stale | t => t end).
Lemma restale_tag e : e_tag (restale e) = Fresh <-> e_tag e = Fresh.
Proof. cbn. destruct (e_tag e); split; congruence. Qed.

Lemma peq_map lo hi buf pend (f : ent -> ent) : (forall e, e_msn (f e) = e_msn e /\ e_msg (f e) = e_msg e) ->
  (forall e, In e buf -> rel lo hi (e_msg e) -> once (e_msg e) = true -> (e_tag (f e) = Fresh <-> e_tag e = Fresh)) -> peq lo hi (buf ++ pend) (map f buf ++ pend).
Proof.
  intros F1 F2. split; intros e Ie R; apply in_app_or in Ie; destruct Ie as [Ie|Ie].
  - exists (f e). destruct (F1 e) as (Q1 & Q2). split; [apply in_or_app; left; apply in_map; auto|]. split; [auto|]. split; [auto|]. auto.
  - exists e. split; [apply in_or_app; auto|tauto].
  - apply in_map_iff in Ie. destruct Ie as (x & <- & Ix). destruct (F1 x) as (Q1 & Q2). exists x. split; [apply in_or_app; auto|]. split; [auto|]. split; [auto|].
    rewrite Q2 in *. intros O. symmetry. apply F2; auto.
  - exists e. split; [apply in_or_app; auto|tauto].
Qed.
Lemma buf_map H lo hi mx buf (f : ent -> ent) : (forall e, e_msn (f e) = e_msn e /\ e_msg (f e) = e_msg e) -> buf_ok H lo hi mx buf -> buf_ok H lo hi mx (map f buf).
Proof.
  intros F1 (K1 & K2). split.
  - rewrite map_map. erewrite map_ext; [exact K1|]. intros e. apply F1.
  - intros e Ie. apply in_map_iff in Ie. destruct Ie as (x & <- & Ix). destruct (F1 x) as (-> & ->). auto.
Qed.

Lemma stale_good i : good (fun _ _ _ t => move_stale i t).
Proof.
  intros H top h lo hi pend [l|mx lk ch] HO B W; cbn [move_stale]; [exact Logic.I|]. destruct h as [|h]; [contradiction|].
  rewrite (seg_upd_bounds (fun x => Ok (One (map (fun e => Ent (e_msn e) (e_msg e) (match e_tag e with Marked => Stale | t => t end)) (fst x), snd x), tt)) ch None None lo hi i).
  apply node_upd; auto. intros lo' hi' x Nx Sx Bx (KB & KW). cbn [outc fst seg_all seg_list]. split.
  - split; [exact Bx|]. split; [apply (buf_map H lo' hi' mx (fst x) restale); auto|]. cbn [fst snd].
    eapply (wf_pend ok H top HO); [exact KW|apply (peq_map lo' hi' (fst x) pend restale); [auto|intros e _ _ _; apply restale_tag]|].
    intros e Ie. pose proof (wf_in_hist _ _ _ _ _ _ _ KW) as IH. apply in_app_or in Ie. destruct Ie as [Ie|Ie]; [|apply IH; apply in_or_app; auto].
    apply in_map_iff in Ie. destruct Ie as (z & <- & Iz). cbn. apply IH. apply in_or_app; auto.
  - intros y [<-|[]] B0 LB MB. cbn [snd]. auto.
Qed.

(** ** A new root *)
Lemma new_root_ok H top h t : hist_ok H top -> wf H top h None None [] t -> outc (new_root t) (fun t' => wf H top (S h) None None [] t').
Proof.
  intros HO W. unfold new_root. destruct (free (lock_of t)); [|exact Logic.I]. cbn [outc wf seg_all fst snd app].
  split; [destruct t, h; try contradiction; apply W|]. split; [intros e []|]. split; [intros e []|]. split; [intros _ e []|].
  split; [exact Logic.I|]. split; [apply buf_nil|exact W].
Qed.

(** ** Injection *)
Lemma fetch_node mx lk ch : fetch_all (TNode (E:=E) mx lk ch) = TNode mx lk ch.
Proof. reflexivity. Qed.

Lemma inject_ok H top g m keep : hist_ok H top -> fits g (top + 1)%N -> let n := (top + 1)%N in forall path h lo hi t,
  blt c lo hi -> wf H top h lo hi [] t -> rel lo hi m ->
  outc (inject g n m keep path t) (fun t' => wf (H ++ [(n, m)]) n h lo hi [] t').
Proof.
  intros HO FT n. fold n in FT. assert (LT : (top < n)%N) by (unfold n; lia). clearbody n.
  pose proof (hist_grow H top n m HO LT) as HO'.
  induction path as [|i path IH]; intros h lo hi t B W R; cbn [inject].
  - destruct (free (lock_of t)) eqn:FR; [|exact Logic.I]. apply free_eq in FR.
    assert (GR : grown n m lo hi [] [Ent n m Fresh]).
    { split; [intros e [<-|[]]; auto|]. split; [intros e []|]. intros _. cbn. auto. }
    pose proof (wf_grow ok H top n m HO LT h lo hi [] [Ent n m Fresh] t W GR) as W'.
    pose proof (wf_seen ok H top n LT h lo hi [] t W) as (SN & MX).
    destruct t as [l|mx lk ch].
    + destruct h; [|contradiction]. apply (wf_fetch ok) in W'. apply fetch_seen in SN. cbn [fetch_all] in *. cbn [node_put].
      set (l1 := Leaf (l_max l) (l_dirty l) (seg_map (slot_fetch (l_max l)) (l_parts l))) in *.
      assert (D : leaf_ok (H ++ [(n, m)]) n lo hi [Ent n m Fresh] [] (Leaf (l_max l1) true (l_parts l1))).
      { eapply leaf_dirty; [exact W'| |intros e []]. intros x. cbn. rewrite seg_list_map, in_map_iff. intros (y & <- & _). apply slot_fetch_mem. }
      destruct (leaf_put_ok ok (H ++ [(n, m)]) n lo hi (Ent n m Fresh) [] [] g _ HO' D eq_refl R) as (l2 & P1 & P2 & P3 & _).
      * intros e' [].
      * intros e' [].
      * exact FT.
      * assert (EQ : leaf_put g n m l1 = leaf_put g n m (Leaf (l_max l1) true (l_parts l1))) by reflexivity.
        cbn [e_msn e_msg] in P1. rewrite EQ, P1. cbn [outc]. destruct keep; exact P2.
    + destruct h; [contradiction|]. cbn in FR. subst lk. rewrite fetch_node.
      destruct (node_put_ok ok (H ++ [(n, m)]) n h lo hi (Ent n m Fresh) [] g mx Free ch HO' W' eq_refl R) as (ch' & P1 & P2 & _).
      * intros e' [].
      * cbn [e_msn e_msg e_tag] in P1, P2. rewrite P1. cbn [outc]. destruct keep; [|exact P2]. apply set_lock_wf; [exact P2|]. intros _ e [].
  - destruct t as [l|mx lk ch]; [exact Logic.I|]. destruct h as [|h]; [contradiction|].
    destruct (free lk && once m) eqn:Q; [|exact Logic.I]. apply andb_prop in Q. destruct Q as (FR & O). apply free_eq in FR. subst lk.
    destruct R as [R|R]; [congruence|]. pose proof W as (T & I & M & CH & S).
    destruct (seg_which ok _ _ _ _ _ S R) as (j & lo' & hi' & a & WC & Ra & (KB & KW) & Ba & Sa & Ia & AC).
    rewrite WC. cbn [must]. destruct (Nat.eqb_spec i j) as [->|]; [|exact Logic.I].
    set (f := fun x : list ent * tree => when is_nil (fst x); rdo u <- inject g n m keep path (snd x); Ok (One (fst x, u), tt)).
    change (fun _ _ : bound => f) with (fun (_ _ : bound) x => f x). rewrite (seg_upd_bounds f ch None None lo hi j). specialize (AC _ (fun _ _ x => f x)). cbn beta in AC.
    destruct (f a) as [[sa []]| |] eqn:F.
    + destruct AC as (ch' & -> & IN & K). cbn [outc]. unfold f in F. destruct (is_nil (fst a)) eqn:N1; [|discriminate].
      assert (EB : fst a = []) by (destruct (fst a); [reflexivity|discriminate]). rewrite EB in *. cbn [app] in KW.
      specialize (IH h lo' hi' (snd a) Ba KW (or_intror Ra)). destruct (inject g n m keep path (snd a)) as [t'| |]; try discriminate. injection F as <-. cbn [outc] in IH.
      cbn [wf]. split; [lia|]. split; [intros e []|]. split; [intros e []|]. split; [intros _ e []|]. apply K.
      * intros lo2 hi2 b ((K1 & K2) & KWb) Sb Db. split.
        -- split; [exact K1|]. intros e Ie. destruct (K2 e Ie) as (Q1 & Q2 & Q3). split; [apply in_or_app; auto|]. auto.
        -- eapply (wf_grow ok); [exact HO|exact LT|exact KWb|]. split; [auto|]. split; [auto|]. intros [Q|Q]; [congruence|]. exfalso. exact (Db _ Ra Q).
      * cbn [seg_all]. split; [exact Ba|]. split; [apply buf_nil|exact IH].
    + rewrite AC. exact Logic.I.
    + unfold f in F. destruct (is_nil (fst a)) eqn:N1; [|discriminate]. assert (EB : fst a = []) by (destruct (fst a); [reflexivity|discriminate]). rewrite EB in KW. cbn [app] in KW.
      specialize (IH h lo' hi' (snd a) Ba KW (or_intror Ra)). destruct (inject g n m keep path (snd a)); try discriminate. contradiction.
Qed.

Lemma wf_height H top : forall h lo hi pend t, wf H top h lo hi pend t -> height t = h.
Proof.
  induction h as [|h IH]; intros lo hi pend [l|mx lk ch] W; cbn [wf] in W; try contradiction; [reflexivity|].
  destruct W as (_ & _ & _ & _ & S). cbn [height]. f_equal. destruct ch as [x|x p s]; cbn [seg_all] in S.
  - destruct S as (_ & _ & W). eapply IH; eauto.
  - destruct S as (_ & (_ & W) & _). eapply IH; eauto.
Qed.
End O.
