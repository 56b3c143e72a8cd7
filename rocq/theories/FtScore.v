(** The system with the shortcut into the rightmost leaf: when seqinsert_score
    is positive nothing waits above the rightmost leaf. *)
From Verif Require Import Base Bytes LtSpec KOrd PivotModel PivotProofs FtModel FtSpec FtSeg FtRows FtInv FtPut FtOps FtOps2 FtOps3 FtQuery FtSys FtShort.
From Coq Require Import Sorted.
Open Scope nat_scope.
#[local] Existing Instance any_time.

Section Model.
Context {E : env} (is_del : L E -> bool).
Local Notation msg := (gmsg (A E)).
Local Notation tree := (tree E).

(** struct ft (ft/ft-internal.h:226-237): the tree, seqinsert_score. *)
Record sstate := SState { x_st : state E; x_score : N }.

(** FT_SEQINSERT_SCORE_THRESHOLD (ft/ft-internal.h:70). *)
Definition THRESHOLD : N := 100.

(** Is the node at the end of the path the rightmost leaf?  The root does not
    count (ft/ft-ops.cc:1739-1747).  The block number of the rightmost leaf stays with
    it when it is split or merged (ft/ft-flusher.cc:495-523, 1325-1335). *)
Fixpoint to_right (path : list nat) (t : tree) : bool :=
  match path, t with
  | [], TLeaf _ => true
  | i :: path, TNode _ _ ch =>
    (S i =? length (seg_list ch)) &&
    (fix go (s : seg (list (ent E) * tree)) : bool :=
       match s with One x => to_right path (snd x) | Cons _ _ s => go s end) ch
  | _, _ => false
  end.
Definition is_rightmost (path : list nat) (t : tree) : bool :=
  match path with [] => false | _ => to_right path t end.

(** inject_message_in_locked_node (ft/ft-ops.cc:1506-1514). *)
Definition score_after (hit : bool) (n : N) : N :=
  if hit then (if (n <? THRESHOLD)%N then n + 1 else n) else 0.

Inductive sop :=
| SOp (o : op E)
| SShort (unique : bool) (k : bytes) (a : A E) (g : G E).

Inductive answer := ANone | ARow (r : option (L E)) | AShort (r : short_result).

(** Ordinary steps, and the shortcut: the score is read and the leaf is pinned
    in one step. *)
Definition sstep (o : sop) (x : sstate) : res (sstate * answer) :=
  match o with
  | SOp o =>
    rdo (s', r) <- step o (x_st x);
    Ok (SState s' (match o with
                   | OInject _ _ _ path => score_after (is_rightmost path (s_tree (x_st x))) (x_score x)
                   | _ => x_score x
                   end), match r with None => ANone | Some v => ARow v end)
  | SShort unique k a g =>
    match s_tree (x_st x) with
    | TLeaf _ => Block
    | TNode _ _ _ =>
      when (THRESHOLD <=? x_score x)%N;
      let n := (s_top (x_st x) + 1)%N in
      rdo (t, r) <- short is_del unique g n (Msg MInsert k a) (s_tree (x_st x));
      match r with
      | Inserted => Ok (SState (State n t) (score_after true (x_score x)), AShort r)
      | _ => Ok (SState (State (s_top (x_st x)) t) (x_score x), AShort r)
      end
    end
  end.

(** toku_ft_maybe_insert (ft/ft-ops.cc:2400-2447) outside recovery, for an
    operation of type [ty] (DB_NOOVERWRITE_NO_ERROR gives
    FT_INSERT_NO_OVERWRITE): the shortcut is given FT_INSERT whatever [ty] is
    (2435).  [keep] and [path] are for the ordinary way in. *)
Definition maybe_insert (ty : mtype) (k : bytes) (a : A E) (g : G E) (keep : bool) (path : list nat) (x : sstate) : res sstate :=
  let slow x := rdo (x', _) <- sstep (SOp (OInject g (Msg ty k a) keep path)) x; Ok x' in
  match sstep (SShort false k a g) x with
  | Ok (x', AShort Inserted) => Ok x'
  | Ok (x', _) => slow x'
  | Block => slow x
  | Fail => Fail
  end.

Definition sinit : sstate := SState init 0.

Definition sinjected (o : sop) (r : answer) : list msg :=
  match o, r with
  | SOp o, _ => injected o
  | SShort _ k a _, AShort Inserted => [Msg MInsert k a]
  | _, _ => []
  end.

(** The shortcut is only taken when the first and the last basement node of the
    rightmost leaf have rows. *)
Definition careful (o : sop) (x : sstate) : Prop :=
  match o with SOp _ => True | SShort _ _ _ _ => edges (right_leaf (s_tree (x_st x))) end.

Inductive sreach : list msg -> sstate -> Prop :=
| sreach_init : sreach [] sinit
| sreach_step h x o x' r : sreach h x -> careful o x -> sstep o x = Ok (x', r) -> sreach (h ++ sinjected o r) x'.
End Model.

Section P.
Context {E : env} (ok : cmp_ok (kcmp E)) (is_del : L E -> bool).
Local Notation msg := (gmsg (A E)).
Local Notation tree := (tree E).
Local Notation child := (list (ent E) * tree)%type.

Fixpoint seg_last {C} (s : seg C) : C := match s with One a => a | Cons _ _ s => seg_last s end.

Lemma clear_node mx lk ch : clear_right (TNode (E:=E) mx lk ch) <-> fst (seg_last ch) = [] /\ clear_right (snd (seg_last ch)).
Proof. cbn [clear_right]. induction ch; cbn; [tauto|exact IHch]. Qed.
Lemma right_leaf_node mx lk ch : right_leaf (TNode (E:=E) mx lk ch) = right_leaf (snd (seg_last ch)).
Proof. cbn [right_leaf]. induction ch; cbn; auto. Qed.
Lemma to_right_node mx lk ch i path : to_right (i :: path) (TNode (E:=E) mx lk ch) = (S i =? length (seg_list ch)) && to_right path (snd (seg_last ch)).
Proof. cbn [to_right]. f_equal. induction ch; cbn; auto. Qed.

Lemma last_app {C} (s : seg C) p s' : seg_last (seg_app s p s') = seg_last s'.
Proof. induction s; cbn; auto. Qed.
Lemma last_map {C D} (f : C -> D) s : seg_last (seg_map f s) = f (seg_last s).
Proof. induction s; cbn; auto. Qed.
Lemma last_cut {C} n : forall (s s1 s2 : seg C) k, seg_cut n s = Ok (s1, k, s2) -> seg_last s2 = seg_last s.
Proof.
  induction n as [|n IH]; intros [a|a p s] s1 s2 k Q; try discriminate. cbn in Q. destruct n; [injection Q as <- <- <-; reflexivity|].
  destruct (seg_cut (S n) s) as [[[s1' k'] s2']| |] eqn:C0; try discriminate. injection Q as <- <- <-. cbn. eapply IH; eauto.
Qed.
(** An update leaves the last child alone, or is done to it. *)
Lemma upd_last {C R} (f : bound -> bound -> C -> res (seg C * R)) s : forall lo hi i s' r, seg_upd lo hi i f s = Ok (s', r) ->
  seg_last s' = seg_last s /\ S i < length (seg_list s) \/
  S i = length (seg_list s) /\ exists lo' hi' sa, f lo' hi' (seg_last s) = Ok (sa, r) /\ seg_last s' = seg_last sa.
Proof.
  induction s as [a|a p s IH]; intros lo hi i s' r Q; destruct i; cbn in Q; try discriminate.
  - right. split; [reflexivity|]. exists lo, hi, s'. auto.
  - destruct (f lo (Some p) a) as [[sa ra]| |]; try discriminate. injection Q as <- <-. left. cbn. rewrite last_app. split; [reflexivity|]. destruct s; cbn; lia.
  - destruct (seg_upd (Some p) hi i f s) as [[sa ra]| |] eqn:U; try discriminate. injection Q as <- <-. destruct (IH _ _ _ _ _ U) as [(K & K2)|(K & lo' & hi' & sb & K2 & K3)].
    + left. cbn. split; [exact K|lia].
    + right. cbn. split; [lia|]. eauto.
Qed.
Lemma upd2_last {C} (f : bound -> bound -> C -> bytes -> C -> res (seg C)) s : forall lo hi i s', seg_upd2 lo hi i f s = Ok s' ->
  seg_last s' = seg_last s \/ exists lo' hi' a p sa, f lo' hi' a p (seg_last s) = Ok sa /\ seg_last s' = seg_last sa.
Proof.
  induction s as [a|a p s IH]; intros lo hi i s' Q; destruct i; cbn in Q; try discriminate.
  - destruct s as [b|b q s].
    + right. exists lo, hi, a, p, s'. auto.
    + destruct (f lo (Some q) a p b) as [sa| |]; try discriminate. injection Q as <-. left. cbn. apply last_app.
  - assert (U : exists sa, seg_upd2 (Some p) hi i f s = Ok sa /\ s' = Cons a p sa).
    { destruct s; destruct (seg_upd2 (Some p) hi i f _) as [sa| |]; try discriminate; injection Q as <-; eauto. }
    destruct U as (sa & U & ->). cbn. eapply IH; eauto.
Qed.

(** ** Nothing waits above the rightmost leaf: preserved by every step *)
Definition keeps (f : tree -> res tree) : Prop := forall t t', f t = Ok t' -> clear_right t -> clear_right t'.

Lemma at_path_keeps f : (forall lo hi pend, keeps (f lo hi pend)) -> forall p lo hi pend, keeps (at_path p f lo hi pend).
Proof.
  intros K. induction p as [|i p IH]; intros lo hi pend t t' Q CR; cbn [at_path] in Q; [eapply K; eauto|].
  destruct t as [|mx lk ch]; [discriminate|].
  match type of Q with context [seg_upd lo hi i ?ff ch] => destruct (seg_upd lo hi i ff ch) as [[ch' r]| |] eqn:U; try discriminate end. injection Q as <-.
  apply clear_node in CR. apply clear_node. apply upd_last in U. destruct U as [(-> & _)|(_ & lo' & hi' & sa & U & ->)]; [exact CR|].
  destruct (at_path p f lo' hi' (fst (seg_last ch) ++ pend) (snd (seg_last ch))) as [u| |] eqn:AP; try discriminate. injection U as <- _. cbn. split; [apply CR|]. eapply IH; [exact AP|]. apply CR.
Qed.

Lemma clear_fetch (t : tree) : clear_right (fetch_all t) <-> clear_right t.
Proof. destruct t; cbn; tauto. Qed.
Lemma clear_dirty (t : tree) : clear_right (set_dirty t) <-> clear_right t.
Proof. destruct t; cbn; tauto. Qed.
Lemma clear_pin lk mx (t : tree) : clear_right (pin_child lk mx t) <-> clear_right t.
Proof. unfold pin_child. rewrite clear_fetch. destruct lk; try tauto. destruct t; cbn [destroy_blbs]; [|tauto]. destruct (_ && _); cbn; tauto. Qed.
Lemma clear_lock lk (t : tree) : clear_right (set_lock lk t) <-> clear_right t.
Proof. destruct t; cbn [set_lock]; [tauto|]. rewrite !clear_node. tauto. Qed.

Lemma flush_keeps g i lo hi : keeps (flush_child g i lo hi).
Proof.
  intros [l|mx lk ch] t' Q CR; [discriminate|]. cbn [flush_child] in Q. destruct (negb (free lk)); [|discriminate].
  match type of Q with context [seg_upd lo hi i ?ff ch] => destruct (seg_upd lo hi i ff ch) as [[ch' r]| |] eqn:U; try discriminate end. injection Q as <-.
  apply clear_node in CR. apply clear_node. apply upd_last in U. destruct U as [(-> & _)|(_ & lo' & hi' & sa & U & ->)]; [exact CR|]. destruct CR as (CR1 & CR2).
  destruct (free (lock_of (snd (seg_last ch)))); [|discriminate]. rewrite CR1 in U. cbn [put_all] in U. injection U as <- _. cbn. split; [reflexivity|].
  apply clear_lock, clear_dirty, clear_pin. exact CR2.
Qed.
Lemma split_keeps i w lo hi : keeps (split_child i w lo hi).
Proof.
  intros [l|mx lk ch] t' Q CR; [discriminate|]. cbn [split_child] in Q. destruct (negb (free lk)); [|discriminate].
  match type of Q with context [seg_upd lo hi i ?ff ch] => destruct (seg_upd lo hi i ff ch) as [[ch' r]| |] eqn:U; try discriminate end. injection Q as <-.
  apply clear_node in CR. apply clear_node. apply upd_last in U. destruct U as [(-> & _)|(_ & lo' & hi' & sa & U & ->)]; [exact CR|]. destruct CR as (CR1 & CR2).
  destruct (_ && _); [|discriminate]. apply (clear_pin lk mx), clear_dirty in CR2. destruct (split_node w (set_dirty (pin_child lk mx (snd (seg_last ch))))) as [[[t1 k] t2]| |] eqn:SN; try discriminate.
  injection U as <- _. cbn. split; [reflexivity|]. destruct (set_dirty (pin_child lk mx (snd (seg_last ch)))) as [l|m2 lk2 ch2]; cbn [split_node] in SN.
  - destruct (leaf_split w (l_parts l)) as [[[s1 k1] s2]| |]; try discriminate. injection SN as <- <- <-. exact Logic.I.
  - destruct (seg_cut _ ch2) as [[[s1 k1] s2]| |] eqn:SC; try discriminate. injection SN as <- <- <-. apply clear_node. apply clear_node in CR2. rewrite (last_cut _ _ _ _ _ SC). exact CR2.
Qed.
Lemma merge_keeps g g' i w lo hi : keeps (merge_children g g' i w lo hi).
Proof.
  intros [l|mx lk ch] t' Q CR; [discriminate|]. cbn [merge_children] in Q. destruct (negb (free lk)); [|discriminate].
  match type of Q with context [seg_upd2 lo hi i ?ff ch] => destruct (seg_upd2 lo hi i ff ch) as [ch'| |] eqn:U; try discriminate end. injection Q as <-.
  apply clear_node in CR. apply clear_node. apply upd2_last in U. destruct U as [->|(lo' & hi' & a & p & sa & U & ->)]; [exact CR|]. destruct CR as (CR1 & CR2).
  destruct (_ && _); [|discriminate]. destruct (flush_some g (fst a) (fetch_all (snd a))) as [ta| |]; try discriminate. rewrite CR1 in U. cbn [flush_some is_nil] in U.
  apply clear_fetch in CR2. destruct (fetch_all (snd (seg_last ch))) as [lb|mb lkb sb]; destruct ta as [la|ma lka saa]; cbn [merge_nodes] in U; try discriminate.
  - destruct w.
    + injection U as <-. cbn. auto.
    + destruct (leaf_join _ _); try discriminate. injection U as <-. cbn. auto.
    + destruct (1 <? _); [|discriminate]. destruct (leaf_join _ _); try discriminate. destruct (leaf_split _ _) as [[[s1 k1] s2]| |]; try discriminate. injection U as <-. cbn. auto.
  - injection U as <-. cbn [seg_last fst snd]. split; [reflexivity|]. apply clear_node. rewrite last_app. apply clear_node in CR2. exact CR2.
Qed.

Lemma local_keeps (s : state E) f p s' r : (forall lo hi pend, keeps (f lo hi pend)) -> local s (at_path p f None None [] (s_tree s)) = Ok (s', r) -> clear_right (s_tree s) -> clear_right (s_tree s').
Proof.
  intros K Q CR. unfold local in Q. destruct (at_path p f None None [] (s_tree s)) as [t| |] eqn:AP; try discriminate. injection Q as <- _. cbn. eapply at_path_keeps; eauto.
Qed.

(** Queries change marks only. *)
Definition same_shape (an an' : ancs E) : Prop := Forall2 (fun x y => length (snd x) = length (snd y)) an an'.
Lemma shape_refl an : same_shape an an.
Proof. induction an; constructor; auto. Qed.
Lemma shape_trans a b d : same_shape a b -> same_shape b d -> same_shape a d.
Proof. intros K. revert d. induction K; intros d K2; inversion K2; subst; constructor; [congruence|apply IHK; assumption]. Qed.
Lemma anc_shape g lo hi : forall an b, same_shape an (snd (anc_apply (E:=E) g lo hi an b)).
Proof.
  induction an as [|[mx buf] an IH]; intros b; cbn [anc_apply]; [constructor|]. destruct (b_max b <? mx)%N.
  - destruct (bnc_apply g lo hi buf b) as [r buf'] eqn:BA. specialize (IH (Bn r mx (b_flag b))). destruct (anc_apply g lo hi an (Bn r mx (b_flag b))) as [b' an'].
    constructor; [|exact IH]. cbn. unfold bnc_apply in BA. destruct (_ || _); [injection BA as _ <-; symmetry; apply map_length|]. destruct (is_nil _); injection BA as _ <-; [symmetry; apply map_length|reflexivity].
  - specialize (IH b). destruct (anc_apply g lo hi an b) as [b' an']. constructor; [reflexivity|exact IH].
Qed.
Lemma every_shape g s : forall lo hi an, same_shape an (snd (apply_every (E:=E) g lo hi an s)).
Proof.
  assert (SL : forall lo hi an a, same_shape an (snd (slot_apply (E:=E) g lo hi an a))).
  { intros lo hi an a. unfold slot_apply. destruct (s_mem a) as [b|]; [|apply shape_refl]. pose proof (anc_shape g lo hi an b) as K. destruct (anc_apply g lo hi an b). exact K. }
  induction s as [a|a p s IH]; intros lo hi an; cbn [apply_every].
  - specialize (SL lo hi an a). destruct (slot_apply g lo hi an a). exact SL.
  - specialize (SL lo (Some p) an a). destruct (slot_apply g lo (Some p) an a) as [a' an1]. specialize (IH (Some p) hi an1). destruct (apply_every g (Some p) hi an1 s) as [s' an2]. eapply shape_trans; eauto.
Qed.
Lemma leaf_shape g k lo hi an (l : leaf E) l' an' r : leaf_query g k lo hi an l = Ok (l', an', r) -> same_shape an an'.
Proof.
  unfold leaf_query, leaf_pin. intros Q. destruct (which_child (kcmp E) (seg_pivots (l_parts l)) k) as [i|]; [|discriminate]. cbn [must] in Q.
  match type of Q with context [seg_upd lo hi i ?f (l_parts l)] => destruct (seg_upd lo hi i f (l_parts l)) as [[ps x]| |]; try discriminate end.
  destruct (l_dirty l).
  - assert (XS : same_shape an (snd (if needs_every lo hi an ps then apply_every g lo hi an ps else (ps, an)))). { destruct (needs_every lo hi an ps); [apply every_shape|apply shape_refl]. }
    destruct (if needs_every lo hi an ps then apply_every g lo hi an ps else (ps, an)) as [ps' an1]. cbn [snd] in XS.
    match type of Q with context [seg_upd lo hi i ?f ps'] => destruct (seg_upd lo hi i f ps') as [[s' r']| |]; try discriminate end. injection Q as _ <- _. exact XS.
  - match type of Q with context [seg_upd lo hi i ?f ps] => set (F := f) in *; destruct (seg_upd lo hi i F ps) as [[s' [an1 r']]| |] eqn:U; try discriminate end. injection Q as _ <- _.
    assert (FS : forall lo' hi' s sa r0, F lo' hi' s = Ok (sa, r0) -> same_shape an (fst r0)).
    { intros lo' hi' s sa r0 Q. unfold F in Q. destruct (s_mem s) as [b|]; [|discriminate]. destruct (bn_needs lo' hi' an b 0) as [n|].
      - injection Q as _ <-. apply shape_refl.
      - pose proof (anc_shape g lo' hi' an b) as Z. destruct (anc_apply g lo' hi' an b). injection Q as _ <-. exact Z. }
    clearbody F. clear - U FS. revert lo hi i s' U. induction ps as [a|a p ps IH]; intros lo hi i s' U; destruct i; cbn in U; try discriminate.
    + apply FS in U. exact U.
    + destruct (F lo (Some p) a) as [[sa ra]| |] eqn:FA; try discriminate. injection U as _ ->. apply FS in FA. exact FA.
    + destruct (seg_upd (Some p) hi i F ps) as [[sa ra]| |] eqn:FA; try discriminate. injection U as _ ->. eapply IH; eauto.
Qed.
Lemma query_keeps g k : forall h lo hi an t t' an' r, query (E:=E) h g k lo hi an t = Ok (t', an', r) -> same_shape an an' /\ (clear_right t -> clear_right t').
Proof.
  induction h as [|h IH]; intros lo hi an t t' an' r Q; destruct t as [l|mx lk ch]; cbn [query] in Q; try discriminate.
  1,2: destruct (leaf_query g k lo hi an l) as [[[l' an1] r1]| |] eqn:LQ; try discriminate; injection Q as <- <- _; split; [eapply leaf_shape; eauto|auto].
  destruct (free lk); [|discriminate]. destruct (which_child (kcmp E) (seg_pivots ch) k) as [i|]; [|discriminate]. cbn [must] in Q.
  match type of Q with context [seg_upd lo hi i ?f ch] => set (F := f) in *; destruct (seg_upd lo hi i F ch) as [[ch' [an1 r1]]| |] eqn:U; try discriminate end. injection Q as <- <- _.
  assert (FS : forall lo' hi' x sa r0, F lo' hi' x = Ok (sa, r0) -> same_shape an (fst r0) /\ (fst x = [] -> fst (seg_last sa) = []) /\ (clear_right (snd x) -> clear_right (snd (seg_last sa)))).
  { intros lo' hi' x sa r0 Q. unfold F in Q. destruct (query h g k lo' hi' ((mx, fst x) :: an) (snd x)) as [[[u an2] r2]| |] eqn:QQ; try discriminate.
    destruct (IH _ _ _ _ _ _ _ QQ) as (Z1 & Z2). destruct an2 as [|[m2 buf'] an2]; [discriminate|]. injection Q as <- <-. inversion Z1; subst. cbn in *. split; [assumption|]. split; [|exact Z2].
    intros Z. rewrite Z in *. destruct buf'; [reflexivity|discriminate]. }
  split.
  - clearbody F. clear - U FS. revert lo hi i ch' U. induction ch as [a|a p ps IH]; intros lo hi i s' U; destruct i; cbn in U; try discriminate.
    + apply FS in U. apply U.
    + destruct (F lo (Some p) a) as [[sa ra]| |] eqn:FA; try discriminate. injection U as _ ->. apply FS in FA. apply FA.
    + destruct (seg_upd (Some p) hi i F ps) as [[sa ra]| |] eqn:FA; try discriminate. injection U as _ ->. eapply IH; eauto.
  - intros CR. apply clear_node in CR. apply clear_node. apply upd_last in U. destruct U as [(-> & _)|(_ & lo' & hi' & sa & U & ->)]; [exact CR|]. apply FS in U. destruct U as (_ & U1 & U2). split; [apply U1|apply U2]; apply CR.
Qed.

(** Injecting a message into the rightmost leaf means that nothing waits above
    it. *)
Lemma inject_clear g n m keep : forall path t t', inject (E:=E) g n m keep path t = Ok t' -> to_right path t = true -> clear_right t'.
Proof.
  induction path as [|i path IH]; intros t t' Q TR.
  - destruct t as [l|]; [|discriminate]. cbn [inject lock_of free] in Q. cbn [fetch_all node_put] in Q. destruct (leaf_put _ _ _ _); try discriminate. injection Q as <-. destruct keep; exact Logic.I.
  - destruct t as [l|mx lk ch]; [discriminate|]. rewrite to_right_node in TR. apply andb_prop in TR. destruct TR as (TL & TR). apply Nat.eqb_eq in TL. cbn [inject] in Q.
    destruct (_ && _); [|discriminate]. destruct (which_child _ _ _) as [j|]; [|discriminate]. cbn [must] in Q. destruct (i =? j); [|discriminate].
    match type of Q with context [seg_upd None None i ?f ch] => destruct (seg_upd None None i f ch) as [[ch' r]| |] eqn:U; try discriminate end. injection Q as <-.
    apply clear_node. apply upd_last in U. destruct U as [(_ & LT)|(_ & lo' & hi' & sa & U & ->)]; [lia|].
    destruct (is_nil (fst (seg_last ch))) eqn:N1; [|discriminate]. destruct (inject g n m keep path (snd (seg_last ch))) as [u| |] eqn:IQ; try discriminate. injection U as <- _. cbn.
    split; [destruct (fst (seg_last ch)); [reflexivity|discriminate]|]. eapply IH; eauto.
Qed.
Lemma rightmost_to_right path (t : tree) : is_rightmost path t = true -> to_right path t = true.
Proof. destruct path; [discriminate|auto]. Qed.

Lemma short_clear unique g n m : forall (t : tree) t' r, short is_del unique g n m t = Ok (t', r) -> clear_right t -> clear_right t'.
Proof.
  fix IH 1. intros t t' r Q CR. destruct t as [l|mx lk ch].
  - cbn [short] in Q. destruct (rel_pos _ _ _ _) as [[[] tgt]|]; try (injection Q as <- _; exact Logic.I). destruct (leaf_put_at _ _ _ _ _); try discriminate. injection Q as <- _. exact Logic.I.
  - cbn [short] in Q. cbn [clear_right] in CR.
    match type of Q with (match ?go ch with _ => _ end) = _ => set (gof := go) in * end.
    assert (K : forall s s' r, gof s = Ok (s', r) -> (fst (seg_last s) = [] /\ clear_right (snd (seg_last s))) -> fst (seg_last s') = [] /\ clear_right (snd (seg_last s'))).
    { fix IHs 1. intros s s' r0 Q0 CR0. destruct s as [[bf u]|x p s].
      - cbn in Q0, CR0. destruct (short is_del unique g n m u) as [[u' ru]| |] eqn:SU; try discriminate. injection Q0 as <- _. cbn. split; [apply CR0|]. eapply IH; [exact SU|apply CR0].
      - cbn in Q0, CR0. fold gof in Q0. destruct (gof s) as [[s2 r2]| |] eqn:GS; try discriminate. injection Q0 as <- _. cbn. eapply IHs; [exact GS|exact CR0]. }
    destruct (gof ch) as [[ch' r']| |] eqn:GC; try discriminate. injection Q as <- _. apply clear_node. eapply K; [exact GC|]. apply (clear_node mx lk). exact CR.
Qed.

(** ** The invariant of the whole system *)
Definition SInv (h : list msg) (x : sstate (E:=E)) : Prop := Inv h (x_st x) /\ ((0 < x_score x)%N -> clear_right (s_tree (x_st x))).

Definition sreply (h : list msg) (o : sop (E:=E)) (r : answer (E:=E)) : Prop :=
  match o with
  | SOp (OQuery g k) => exists v, r = ARow v /\ outcome k h v
  | SOp _ => r = ANone
  | SShort unique k _ _ => exists s, r = AShort s /\
    (unique = true -> s <> NotDone -> exists v, outcome k h v /\ exists_live is_del v = match s with KeyExist => true | _ => false end)
  end.

Lemma edges_whole (l : leaf E) : edges l -> edges (whole_leaf l).
Proof.
  assert (HR : forall mx (x : slot E), has_rows x -> has_rows (slot_fetch mx x)). { intros mx x. unfold has_rows, slot_fetch. destruct (s_mem x) eqn:M; [rewrite M; auto|auto]. }
  assert (HD : forall (f : slot E -> slot E) l0 x, hd_error (map f l0) = Some x -> exists y, hd_error l0 = Some y /\ x = f y). { intros f [|y l0] x [=]. cbn. eauto. }
  intros (E1 & E2). split; cbn; rewrite seg_list_map; intros x Q.
  - apply HD in Q. destruct Q as (y & Q & ->). auto.
  - rewrite <- map_rev in Q. apply HD in Q. destruct Q as (y & Q & ->). auto.
Qed.

Lemma step_clear (s : state E) o s' r : (forall g m keep path, o <> OInject g m keep path) -> step o s = Ok (s', r) -> clear_right (s_tree s) -> clear_right (s_tree s').
Proof.
  intros NI Q CR. destruct o; cbn [step] in Q; try (eapply local_keeps in Q; [exact Q| |exact CR]; intros lo hi pend t t' Q' CR').
  - exfalso. exact (NI _ _ _ _ eq_refl).
  - destruct (query (height (s_tree s)) g k None None [] (s_tree s)) as [[[t an] v]| |] eqn:QQ; try discriminate. injection Q as <- _. apply query_keeps in QQ. apply QQ. exact CR.
  - unfold lock_chain in Q'. destruct (_ && _); [|discriminate]. injection Q' as <-. apply clear_lock. exact CR'.
  - unfold lock_cleaner in Q'. destruct (_ && _); [|discriminate]. injection Q' as <-. apply clear_lock. exact CR'.
  - unfold unlock in Q'. destruct (negb _); [|discriminate]. injection Q' as <-. apply clear_lock. exact CR'.
  - eapply flush_keeps; eauto.
  - eapply split_keeps; eauto.
  - eapply merge_keeps; eauto.
  - unfold local, new_root in Q. destruct (free _); [|discriminate]. injection Q as <- _. cbn. auto.
  - destruct t; [|discriminate]. cbn [write_leaf] in Q'. destruct (l_dirty l); [|discriminate]. destruct (forallb _ _); [|discriminate]. destruct (rebalance _ _ _ _); try discriminate. injection Q' as <-. exact Logic.I.
  - destruct t; [|discriminate]. cbn [evict_bn] in Q'. destruct (negb _); [|discriminate]. destruct (seg_upd _ _ _ _ _) as [[? ?]| |]; try discriminate. injection Q' as <-. exact Logic.I.
  - destruct t; [|discriminate]. cbn [fetch_bn] in Q'. destruct (seg_upd _ _ _ _ _) as [[? ?]| |]; try discriminate. injection Q' as <-. exact Logic.I.
  - destruct t as [|mx lk ch]; [discriminate|]. cbn [move_stale] in Q'.
    match type of Q' with context [seg_upd None None ?i ?f ch] => destruct (seg_upd None None i f ch) as [[ch' r']| |] eqn:U; try discriminate end. injection Q' as <-.
    apply clear_node in CR'. apply clear_node. apply upd_last in U. destruct U as [(-> & _)|(_ & lo' & hi' & sa & U & ->)]; [exact CR'|]. injection U as <- _. cbn. destruct CR' as (-> & CR'). auto.
Qed.

Lemma sstep_ok h x o : SInv h x -> careful o x -> outc (sstep is_del o x) (fun y => SInv (h ++ sinjected o (snd y)) (fst y) /\ sreply h o (snd y)).
Proof.
  intros (IV & CR) CF. destruct o as [o|unique k a g]; cbn [sstep].
  - pose proof (step_ok ok h (x_st x) o IV) as K. destruct (step o (x_st x)) as [[s' r]| |] eqn:ST; cbn in K |- *; auto. destruct K as (K1 & K2). split.
    + split; [exact K1|]. cbn [x_score x_st]. intros SC. destruct o as [g m keep path| | | | | | | | | | | |]; try (eapply step_clear; [|exact ST|apply CR; exact SC]; discriminate).
      destruct (is_rightmost path (s_tree (x_st x))) eqn:RM; [|cbn in SC; lia]. apply rightmost_to_right in RM. cbn [step] in ST.
      destruct (inject g (s_top (x_st x) + 1) m keep path (s_tree (x_st x))) as [t| |] eqn:IQ; try discriminate. injection ST as <- _. cbn. eapply inject_clear; eauto.
    + destruct o; cbn [reply] in K2; subst; cbn; auto. destruct K2 as (v & -> & K2). eauto.
  - destruct (s_tree (x_st x)) as [l|mx lk ch] eqn:ET; [exact Logic.I|]. rewrite <- ET in *. destruct (N.leb_spec THRESHOLD (x_score x)) as [LE|]; [|exact Logic.I].
    assert (SC : (0 < x_score x)%N) by (unfold THRESHOLD in LE; lia). specialize (CR SC). destruct IV as (H & hh & EH & HO & W). cbn in CF. apply edges_whole in CF.
    pose proof (short_ok ok is_del H (s_top (x_st x)) unique g (Msg MInsert k a) HO eq_refl hh None (s_tree (x_st x)) Logic.I W CR CF) as K. cbv zeta in K.
    cbv zeta. destruct (short is_del unique g (s_top (x_st x) + 1) (Msg MInsert k a) (s_tree (x_st x))) as [[t r]| |] eqn:SH; [|exact Logic.I|exact K]. apply short_clear in SH; [|exact CR]. cbn [outc fst snd m_key] in K. destruct K as (K1 & K2).
    destruct r; cbn [outc fst snd sinjected sreply].
    + split; [|eexists; split; [reflexivity|]; rewrite <- EH; exact K1]. split; [|intros _; exact SH]. exists (H ++ [((s_top (x_st x) + 1)%N, Msg MInsert k a)]), hh.
      split; [rewrite map_app, EH; reflexivity|]. split; [apply (hist_grow H (s_top (x_st x)) _ _ HO); apply N.lt_add_pos_r; reflexivity|apply K2].
    + rewrite app_nil_r. split; [|eexists; split; [reflexivity|]; rewrite <- EH; exact K1]. split; [|intros _; exact SH]. exists H, hh. auto.
    + rewrite app_nil_r. split; [|eexists; split; [reflexivity|]; rewrite <- EH; exact K1]. split; [|intros _; exact SH]. exists H, hh. auto.
Qed.

Lemma sreach_ok h x : sreach is_del h x -> SInv h x.
Proof.
  induction 1 as [|h x o x' r R IH CF ST]; [split; [apply init_ok|cbn; lia]|]. pose proof (sstep_ok h x o IH CF) as K. rewrite ST in K. apply K.
Qed.
End P.
