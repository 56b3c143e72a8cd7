(** Proofs about the writer of the bulk loader. *)
From Verif Require Import Base Bytes LtSpec KOrd LdrModel LdrSpec LdrSort LdrtModel LdrtSpec.
Open Scope nat_scope.
Ltac Zify.zify_post_hook ::= Z.to_euclidean_division_equations.

Definition d0 : ltree := LLeaf [].
Definition maxk (t : ltree) : bytes := fst (last (rows_of t) ([], [])).
(** The pivots of a list of subtrees: the greatest key of each but the last. *)
Definition pv (ts : list ltree) (ps : list bytes) : Prop := forall i, S i < length ts -> nth i ps [] = maxk (nth i ts d0).
Fixpoint good (least h : nat) (t : ltree) : Prop :=
  match h, t with
  | O, LLeaf _ => True
  | S h', LNode ps ts => least <= length ts <= 15 /\ length ts = S (length ps) /\ pv ts ps /\ Forall (fun t => rows_of t <> [] /\ good 8 h' t) ts
  | _, _ => False
  end.
Lemma good_shaped h : forall least t, good least h t -> shaped least h t.
Proof.
  induction h as [|h IH]; intros least [r|ps ts] G; cbn in *; auto. destruct G as [G1 [G2 [_ G3]]]. split; [exact G1|]. split; [exact G2|].
  eapply Forall_impl; [|exact G3]. intros t [T1 T2]. auto.
Qed.
Lemma good_weak a b h t : b <= a -> good a h t -> good b h t.
Proof. destruct h, t; cbn; intuition lia. Qed.

Lemma nth_skipn {A} n : forall i (l : list A) d, nth i (skipn n l) d = nth (n + i) l d.
Proof. induction n as [|n IH]; intros i [|x l] d; cbn; auto. destruct i; reflexivity. Qed.
Lemma nth_firstn {A} n : forall i (l : list A) d, i < n -> nth i (firstn n l) d = nth i l d.
Proof. induction n as [|n IH]; intros i [|x l] d H; cbn; try lia; auto. destruct i; [reflexivity|]. apply IH. lia. Qed.
Lemma last_app {A} (a b : list A) d : b <> [] -> last (a ++ b) d = last b d.
Proof.
  intros N. induction a as [|x a IH]; [reflexivity|]. cbn [app]. rewrite <- IH. destruct (a ++ b) eqn:E; [|reflexivity]. apply app_eq_nil in E. tauto.
Qed.
Lemma rows_firstn n ts : n < length ts -> concat (map rows_of (firstn (S n) ts)) = concat (map rows_of (firstn n ts)) ++ rows_of (nth n ts d0).
Proof.
  revert n. induction ts as [|t ts IH]; intros n L; cbn in L; [lia|]. destruct n as [|n]; [cbn; rewrite app_nil_r; reflexivity|].
  change (firstn (S (S n)) (t :: ts)) with (t :: firstn (S n) ts). change (firstn (S n) (t :: ts)) with (t :: firstn n ts). cbn [map concat nth]. rewrite IH by lia. apply app_assoc.
Qed.

Lemma nonleaf_ok least h n ts ps : Forall (fun t => rows_of t <> [] /\ good 8 h t) ts -> pv ts ps -> length ps = length ts -> 1 <= n <= length ts -> least <= n <= 15 ->
  exists t p, nonleaf n ts ps = LOk (t, p) /\ good least (S h) t /\ rows_of t <> [] /\ rows_of t = concat (map rows_of (firstn n ts)) /\ (n < length ts -> p = maxk t).
Proof.
  intros F P L N B. unfold nonleaf. destruct (Nat.ltb_spec (length ps) n); [lia|]. destruct (Nat.ltb_spec (length ts) n); [lia|]. cbn [orb]. destruct n as [|n]; [lia|].
  exists (LNode (firstn n ps) (firstn (S n) ts)), (nth n ps []). split; [reflexivity|].
  assert (NE : rows_of (nth n ts d0) <> []). { rewrite Forall_forall in F. apply (F (nth n ts d0)). apply nth_In. lia. }
  assert (LF : length (firstn (S n) ts) = S n) by (rewrite firstn_length; lia).
  split; [|split; [|split]].
  - cbn [good]. rewrite LF. split; [lia|]. split; [rewrite firstn_length; lia|]. split.
    + intros i I. rewrite LF in I. rewrite !nth_firstn by lia. apply P. lia.
    + rewrite <- (firstn_skipn (S n) ts) in F. apply Forall_app in F. tauto.
  - cbn [rows_of]. rewrite rows_firstn by lia. intros X. apply app_eq_nil in X. tauto.
  - reflexivity.
  - intros L2. rewrite P by lia. unfold maxk. cbn [rows_of]. rewrite rows_firstn by lia. rewrite last_app by exact NE. reflexivity.
Qed.

Lemma pv_skipn n ts ps : pv ts ps -> pv (skipn n ts) (skipn n ps).
Proof. intros P i I. rewrite skipn_length in I. rewrite !nth_skipn. apply P. lia. Qed.
Lemma pv_cons t p ts ps : (0 < length ts -> p = maxk t) -> pv ts ps -> pv (t :: ts) (p :: ps).
Proof. intros A B [|i] I; cbn in *; [apply A; lia|apply B; lia]. Qed.
Lemma concat_rows n ts : concat (map rows_of (firstn n ts)) ++ concat (map rows_of (skipn n ts)) = concat (map rows_of ts).
Proof. rewrite <- concat_app, <- map_app, firstn_skipn. reflexivity. Qed.

(** One level. *)
Lemma level_ok h fuel : forall ts ps, length ts <= fuel -> 2 <= length ts -> Forall (fun t => rows_of t <> [] /\ good 8 h t) ts -> pv ts ps -> length ps = length ts ->
  exists ns nps, write_level fuel ts ps = LOk (ns, nps) /\ concat (map rows_of ns) = concat (map rows_of ts) /\ pv ns nps /\ length nps = length ns /\ 1 <= length ns /\ 2 * length ns <= length ts /\
    (15 <= length ts -> Forall (fun t => rows_of t <> [] /\ good 8 (S h) t) ns) /\
    (length ts <= 15 -> exists t, ns = [t] /\ good 2 (S h) t).
Proof.
  induction fuel as [|f IH]; intros ts ps F L G P LP; [lia|]. cbn [write_level]. unfold n_per_block.
  destruct (Nat.leb_spec (15 * 2) (length ts)) as [B|B].
  - destruct (nonleaf_ok 8 h 15 ts ps G P LP ltac:(lia) ltac:(lia)) as [t [p [E [G1 [N1 [R1 M1]]]]]]. rewrite E. cbn [lbind].
    assert (G' : Forall (fun t => rows_of t <> [] /\ good 8 h t) (skipn 15 ts)) by (rewrite <- (firstn_skipn 15 ts) in G; apply Forall_app in G; tauto).
    destruct (IH (skipn 15 ts) (skipn 15 ps)) as [ns [nps [E2 [R2 [P2 [L2 [L3 [L4 [G2 _]]]]]]]]]; [rewrite skipn_length; lia|rewrite skipn_length; lia|exact G'|apply pv_skipn; exact P|rewrite !skipn_length; lia|].
    rewrite E2. cbn [lbind]. rewrite skipn_length in *. exists (t :: ns), (p :: nps). split; [reflexivity|]. split; [cbn [map concat]; rewrite R1, R2; apply concat_rows|].
    split; [apply pv_cons; [intros _; apply M1; lia|exact P2]|]. cbn [length]. split; [lia|]. split; [lia|]. split; [lia|]. split; [intros _; constructor; [auto|apply G2; lia]|lia].
  - destruct (Nat.ltb_spec (length ts) 2); [lia|]. destruct (Nat.ltb_spec 15 (length ts)) as [B2|B2].
    + set (n := length ts / 2). assert (N : 8 <= n <= 14 /\ length ts - n <= 15 /\ 8 <= length ts - n) by (unfold n; lia).
      destruct (nonleaf_ok 8 h n ts ps G P LP ltac:(lia) ltac:(lia)) as [t [p [E [G1 [N1 [R1 M1]]]]]]. rewrite E. cbn [lbind].
      assert (G' : Forall (fun t => rows_of t <> [] /\ good 8 h t) (skipn n ts)) by (rewrite <- (firstn_skipn n ts) in G; apply Forall_app in G; tauto).
      destruct (nonleaf_ok 8 h (length ts - n) (skipn n ts) (skipn n ps) G' (pv_skipn _ _ _ P)) as [t2 [p2 [E2 [G2 [N2 [R2 M2]]]]]]; [rewrite !skipn_length; lia|rewrite !skipn_length; lia|lia|].
      rewrite E2. cbn [lbind]. exists [t; t2], [p; p2]. split; [reflexivity|]. split.
      { cbn [map concat]. rewrite app_nil_r, R1, R2, (firstn_all2 (skipn n ts)) by (rewrite skipn_length; lia). apply concat_rows. }
      split; [apply pv_cons; [intros _; apply M1; lia|intros [|i] I; cbn in I; lia]|]. cbn [length]. split; [reflexivity|]. split; [lia|]. split; [lia|]. split; [intros _; repeat constructor; auto|lia].
    + destruct (nonleaf_ok 2 h (length ts) ts ps G P LP ltac:(lia) ltac:(lia)) as [t [p [E [G1 [N1 [R1 M1]]]]]]. rewrite E. cbn [lbind]. exists [t], [p].
      split; [reflexivity|]. split; [cbn; rewrite app_nil_r, R1, firstn_all; reflexivity|]. split; [intros [|i] I; cbn in I; lia|]. cbn [length]. split; [reflexivity|]. split; [lia|]. split; [lia|]. split.
      * intros L15. constructor; [|constructor]. split; [exact N1|]. destruct t as [|qs us]; [destruct G1|]. cbn [good] in *. destruct G1 as [X [Y Z]]. split; [|tauto]. clear - X E L15 B2.
        unfold nonleaf in E. destruct (_ || _) in E; [discriminate|]. destruct (length ts) eqn:LT; [lia|]. inversion E; subst. change (match ts with [] => [] | a :: l => a :: firstn n l end) with (firstn (S n) ts). rewrite firstn_length. lia.
      * intros _. exists t. auto.
Qed.

Lemma nonleaves_ok fuel : forall h ts ps, length ts <= S fuel -> 1 <= length ts -> Forall (fun t => rows_of t <> [] /\ good 8 h t) ts -> pv ts ps -> length ps = length ts ->
  exists t h', write_nonleaves fuel ts ps = LOk t /\ rows_of t = concat (map rows_of ts) /\ good 2 h' t.
Proof.
  induction fuel as [|f IH]; intros h ts ps F L G P LP; (destruct ts as [|t1 [|t2 ts]]; [cbn in L; lia| |]).
  - exists t1, h. split; [reflexivity|]. inversion G; subst. split; [cbn; rewrite app_nil_r; reflexivity|]. apply (good_weak 8); [lia|tauto].
  - cbn in F. lia.
  - exists t1, h. split; [reflexivity|]. inversion G; subst. split; [cbn; rewrite app_nil_r; reflexivity|]. apply (good_weak 8); [lia|tauto].
  - remember (t1 :: t2 :: ts) as l eqn:EL. cbn [write_nonleaves]. destruct l as [|a [|b l]]; try discriminate. rewrite EL in *. clear EL a b l.
    destruct (level_ok h (length (t1 :: t2 :: ts)) (t1 :: t2 :: ts) ps ltac:(lia) ltac:(cbn; lia) G P LP) as [ns [nps [E [R [P2 [L2 [L3 [L4 [G2 G3]]]]]]]]]. rewrite E. cbn [lbind].
    destruct (Nat.le_gt_cases (length (t1 :: t2 :: ts)) 15) as [B|B].
    + destruct (G3 B) as [t [-> GT]]. exists t, (S h). split; [destruct f; reflexivity|]. split; [|exact GT]. rewrite <- R. cbn. rewrite app_nil_r. reflexivity.
    + destruct (IH (S h) ns nps ltac:(lia) L3 (G2 ltac:(lia)) P2 L2) as [t [h' [E2 [R2 GT]]]]. exists t, h'. split; [exact E2|]. split; [congruence|exact GT].
Qed.

Lemma leaves_ok full rows : forall cur mk, cur = [] /\ rows = [] \/ (cur = [] \/ mk = fst (last cur ([], []))) /\ (cur <> [] \/ rows <> []) ->
  let '(ts, ps) := write_leaves full cur mk rows in
  concat (map rows_of ts) = cur ++ rows /\ pv ts ps /\ length ps = length ts /\ 1 <= length ts /\ (cur ++ rows <> [] -> Forall (fun t => rows_of t <> [] /\ good 8 0 t) ts) /\ (cur ++ rows = [] -> ts = [LLeaf []]).
Proof.
  induction rows as [|x rows IH]; intros cur mk H; cbn [write_leaves].
  - split; [cbn; reflexivity|]. split; [intros [|i] I; cbn in I; lia|]. split; [reflexivity|]. split; [cbn; lia|]. rewrite app_nil_r. split; [intros N; repeat constructor; exact N|]. intros ->. reflexivity.
  - destruct ((0 <? length cur) && full cur x rows) eqn:E.
    + apply andb_true_iff in E. destruct E as [E _]. apply Nat.ltb_lt in E.
      assert (R := IH [x] (fst x) ltac:(right; split; [right; reflexivity|left; discriminate])). destruct (write_leaves full [x] (fst x) rows) as [ts ps].
      destruct R as [R1 [R2 [R3 [R4 [R5 _]]]]]. split; [cbn [map concat rows_of]; rewrite R1; reflexivity|]. split.
      { apply pv_cons; [|exact R2]. intros _. unfold maxk. cbn [rows_of]. destruct H as [[_ H]|[[H|H] _]]; [discriminate|subst; cbn in E; lia|exact H]. }
      split; [cbn; lia|]. split; [cbn; lia|]. split; [intros _; constructor; [split; [cbn; intros ->; cbn in E; lia|exact I]|apply R5; discriminate]|]. intros X. apply app_eq_nil in X. destruct X; discriminate.
    + assert (R := IH (cur ++ [x]) (fst x)). destruct (write_leaves full (cur ++ [x]) (fst x) rows) as [ts ps]. rewrite <- app_assoc in R. apply R. right. split; [right; rewrite last_last; reflexivity|left; intros X; apply app_eq_nil in X; destruct X; discriminate].
Qed.

Lemma write_ok full rows : exists t h, write_ft full rows = LOk t /\ rows_of t = rows /\ good 2 h t.
Proof.
  unfold write_ft. assert (R := leaves_ok full rows [] []). destruct (write_leaves full [] [] rows) as [ts ps].
  destruct rows as [|x rows].
  - destruct (R ltac:(left; auto)) as [_ [_ [_ [_ [_ R6]]]]]. rewrite (R6 eq_refl). exists (LLeaf []), 0. repeat split.
  - destruct (R ltac:(right; split; [left; reflexivity|right; discriminate])) as [R1 [R2 [R3 [R4 [R5 _]]]]].
    destruct (nonleaves_ok (length ts) 0 ts ps ltac:(lia) R4 (R5 ltac:(discriminate)) R2 R3) as [t [h [E [RR G]]]]. exists t, h. split; [exact E|]. split; [rewrite RR; exact R1|exact G].
Qed.

(** Reading. *)
Section F.
Variable c : bytes -> bytes -> comparison.
Hypothesis ok : cmp_ok c.
Variable k : bytes.
Lemma find_none rows : (forall x, In x rows -> ~ keq c k (fst x)) -> row_find c k rows = None.
Proof.
  unfold row_find. induction rows as [|x rows IH]; intros H; cbn; [reflexivity|]. destruct (keqb c k (fst x)) eqn:E; [|apply IH; intros; apply H; right; auto].
  apply keqb_true in E. destruct (H x (or_introl eq_refl) E).
Qed.
Lemma find_app a b : row_find c k (a ++ b) = match row_find c k a with Some v => Some v | None => row_find c k b end.
Proof. unfold row_find. induction a as [|x a IH]; cbn; [reflexivity|]. destruct (keqb c k (fst x)); [reflexivity|exact IH]. Qed.
Lemma last_ge rows : in_order c rows -> forall x, In x rows -> kle c (fst x) (fst (last rows ([], []))).
Proof.
  induction rows as [|a rows IH]; intros O x I; [destruct I|]. inversion O as [|? ? O1 O2]; subst. destruct rows as [|b rows].
  - destruct I as [<-|[]]. cbn. apply (kle_refl ok).
  - change (last (a :: b :: rows) ([], [])) with (last (b :: rows) ([], [])). destruct I as [<-|I]; [|apply IH; auto].
    inversion O1; subst. eapply (kle_trans ok); [apply klt_kle; eassumption|]. apply IH; [exact O2|left; reflexivity].
Qed.
Lemma tree_find_ok h : forall least t, good least h t -> in_order c (rows_of t) -> tree_find c k t = row_find c k (rows_of t).
Proof.
  induction h as [|h IH]; intros least [r|ps ts] G O; try (destruct G; fail); [reflexivity|]. cbn [good] in G. destruct G as [_ [L [P F]]].
  cbn [tree_find rows_of] in *. revert ps L P O. induction F as [|t ts [N GT] F IF]; intros ps L P O; [discriminate|]. cbn [pick map concat] in *.
  apply fop_app in O. destruct O as [O1 [O2 O3]]. destruct ps as [|p ps].
  - destruct ts as [|u us]; [|cbn in L; lia]. cbn. rewrite app_nil_r. eapply IH; [exact GT|exact O1].
  - destruct ts as [|u us]; [cbn in L; lia|]. assert (PM : p = maxk t) by (apply (P 0); cbn; lia). rewrite find_app. destruct (kleb c k p) eqn:K.
    + rewrite (IH _ _ GT O1). rewrite (find_none (concat (map rows_of (u :: us)))); [destruct (row_find c k (rows_of t)); reflexivity|].
      intros x I E. apply kleb_true in K. subst p. assert (I2 : In (last (rows_of t) ([], [])) (rows_of t)).
      { destruct (rows_of t) as [|y l] eqn:ER; [congruence|]. destruct (exists_last (l := y :: l) ltac:(discriminate)) as [l' [z Z]]. rewrite Z, last_last. apply in_or_app. right. left. reflexivity. }
      assert (B := O3 _ _ I2 I). unfold before in B. unfold maxk in K. kord ok.
    + rewrite (find_none (rows_of t)).
      * apply IF; [cbn in *; lia| |exact O2]. intros i I. apply (P (S i)). cbn in *. lia.
      * intros x I E. apply (kleb_false ok) in K. subst p. assert (B := last_ge _ O1 x I). unfold maxk in K. kord ok.
Qed.
End F.

(** Enough leaves for the height. *)
Lemma leaves_many h : forall least t, shaped least h t -> 1 <= leaves_of t /\ match h with O => True | S h' => least * 8 ^ h' <= leaves_of t end.
Proof.
  induction h as [|h IH]; intros least [r|ps ts] G; try (destruct G; fail); [cbn; auto|]. cbn [shaped] in G. destruct G as [B [L F]]. cbn [leaves_of].
  assert (S1 : length ts * 8 ^ h <= list_sum (map leaves_of ts)).
  { clear L B. induction F as [|t ts [_ GT] F IF]; [cbn; lia|]. cbn [map list_sum length fold_right] in *. destruct (IH 8 t GT) as [A1 A2]. assert (8 ^ h <= leaves_of t) by (destruct h; cbn [Nat.pow] in *; lia).
    unfold list_sum in *. cbn [fold_right]. lia. }
  assert (P1 : 1 <= 8 ^ h) by (clear; induction h; cbn [Nat.pow]; lia). split; [nia|]. nia.
Qed.
