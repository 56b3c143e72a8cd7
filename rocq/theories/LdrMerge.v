(** Merging the runs, and the whole load. *)
From Verif Require Import Base Bytes LtSpec KOrd LdrModel LdrSpec LdrSort LdrHeap.
Open Scope nat_scope.
Ltac Zify.zify_post_hook ::= Z.to_euclidean_division_equations.

Lemma lset_perm {A} (l : list (list A)) : forall i y s, nth i l [] = y :: s -> Permutation (concat l) (y :: concat (lset l i s)).
Proof.
  induction l as [|a l IH]; intros [|i] y s H; cbn in *; try discriminate; [subst a; reflexivity|].
  eapply Permutation_trans; [apply Permutation_app_head, IH, H|]. symmetry. apply Permutation_middle.
Qed.
Lemma lset_nth {A} (l : list (list A)) : forall i j s, i < length l -> nth j (lset l i s) [] = if j =? i then s else nth j l [].
Proof. induction l as [|a l IH]; intros [|i] [|j] s H; cbn in *; try lia; auto. rewrite IH by lia. reflexivity. Qed.
Lemma nth_lt {A} (l : list (list A)) i y s : nth i l [] = y :: s -> i < length l.
Proof. intros H. destruct (Nat.lt_ge_cases i (length l)) as [|G]; [assumption|]. rewrite nth_overflow in H by assumption. discriminate. Qed.
Lemma lset_Forall {A} (P : list A -> Prop) l : forall i s, Forall P l -> P s -> Forall P (lset l i s).
Proof. induction l as [|a l IH]; intros [|i] s F Q; cbn; inversion F; subst; auto. Qed.
Lemma tl_perm_cons (d d' : list node) x : 1 <= length d -> 1 <= length d' -> dget d' 0 = dget d 0 -> Permutation (x :: d') d -> Permutation (x :: tl d') (tl d).
Proof.
  destruct d as [|h t], d' as [|h' t']; cbn; try lia. intros _ _ E P. unfold dget in E. cbn in E. subst h'. apply (Permutation_cons_inv (a := h)). eapply Permutation_trans; [apply perm_swap|exact P].
Qed.
Lemma tl_perm_snoc (d d' : list node) x : 1 <= length d -> 1 <= length d' -> dget d' 0 = dget d 0 -> Permutation d' (d ++ [x]) -> Permutation (tl d') (x :: tl d).
Proof.
  intros L L' E P. symmetry. apply tl_perm_cons; auto. symmetry. eapply Permutation_trans; [exact P|]. symmetry. apply Permutation_cons_append.
Qed.

Section M.
Variable c : bytes -> bytes -> comparison.
Hypothesis ok : cmp_ok c.
Notation bef := (before c).
Notation uk := (unique_keys c).

Lemma uniq_of d : uk (map fst (tl d)) -> uniq c d.
Proof.
  intros U i j I J N. destruct d as [|h t]; [cbn in I; lia|]. cbn in *. destruct i as [|i]; [lia|]. destruct j as [|j]; [lia|]. unfold dget. cbn.
  assert (E : forall k, k < length t -> nth_error (map fst t) k = Some (fst (nth k t dummy))).
  { intros k K. rewrite nth_error_map, (nth_error_nth' t dummy K). reflexivity. }
  destruct (Nat.lt_ge_cases i j).
  - apply (fop_nth _ (map fst t) i j); [exact U|lia|apply E; apply Nat.succ_lt_mono, I|apply E; apply Nat.succ_lt_mono, J].
  - apply (oth_sym c ok). apply (fop_nth _ (map fst t) j i); [exact U|lia|apply E; apply Nat.succ_lt_mono, J|apply E; apply Nat.succ_lt_mono, I].
Qed.
Lemma uk_app a b : uk (a ++ b) -> uk a /\ uk b.
Proof. intros H. apply fop_app in H. tauto. Qed.
Lemma root_first d : heap c d -> 2 <= length d -> forall t, Permutation (dget d 1 :: t) (tl d) -> forall n, In n t -> nlt c (dget d 1) n.
Proof.
  intros Hd L t P n I. destruct d as [|h [|r d]]; cbn in L; try lia. cbn in P. apply Permutation_cons_inv in P.
  assert (In n d) as K by (eapply Permutation_in; [exact P|exact I]). destruct (In_nth _ _ dummy K) as [k [K1 K2]].
  rewrite <- K2. change (nth k d dummy) with (dget (h :: r :: d) (2 + k)). apply heap_min; [exact ok|exact Hd|cbn; lia].
Qed.

Lemma merge_loop_ok fuel : forall d rest, length (tl d) + length (concat rest) <= fuel -> 1 <= length d -> heap c d -> Forall (in_order c) rest ->
  (forall j x, In x (nth j rest []) -> exists y, In (y, j) (tl d) /\ bef y x) ->
  match merge_loop c fuel d rest with
  | LOk out => in_order c out /\ Permutation (map fst (tl d) ++ concat rest) out
  | LErr => False
  | _ => ~ uk (map fst (tl d) ++ concat rest)
  end.
Proof.
  induction fuel as [|f IH]; intros d rest F L Hd O C.
  - cbn [merge_loop]. assert (LT : length (tl d) = 0) by lia. destruct d as [|h [|]]; cbn in L, LT; try lia. cbn. destruct (concat rest) as [|z l] eqn:E; [split; constructor|cbn in F; lia].
  - cbn [merge_loop]. destruct (Nat.leb_spec (length d) 1) as [L1|L1].
    { destruct d as [|h [|]]; cbn in L, L1; try lia. cbn [tl map app]. assert (E : concat rest = []).
      { destruct (concat rest) as [|z l] eqn:E; [reflexivity|]. exfalso. assert (I : In z (concat rest)) by (rewrite E; left; reflexivity). apply in_concat in I. destruct I as [r [I1 I2]].
        destruct (In_nth _ _ [] I1) as [k [_ K2]]. rewrite <- K2 in I2. destruct (C k z I2) as [y [[] _]]. }
      rewrite E. split; constructor. }
    destruct (pq_pop c d) as [[x i] [d1 dup]] eqn:P. destruct (pop_ok c ok d (x, i) d1 dup ltac:(lia) Hd P) as [X [PP [Z [L2 [H1 U1]]]]].
    assert (PT : Permutation ((x, i) :: tl d1) (tl d)) by (apply tl_perm_cons; auto; lia).
    assert (FST : forall n, In n (tl d1) -> bef x (fst n)). { intros n I. rewrite X in PT. apply (root_first d Hd ltac:(lia) _ PT) in I. rewrite <- X in I. exact I. }
    assert (PM : Permutation (x :: map fst (tl d1)) (map fst (tl d))) by (apply (Permutation_map fst) in PT; exact PT).
    assert (RST : forall z, In z (concat rest) -> bef x z).
    { intros z I. apply in_concat in I. destruct I as [r [I1 I2]]. destruct (In_nth _ _ [] I1) as [k [_ K2]]. rewrite <- K2 in I2. destruct (C k z I2) as [y [Y1 Y2]].
      apply (Permutation_in _ (Permutation_sym PT)) in Y1. destruct Y1 as [Y1|Y1]; [inversion Y1; subst; exact Y2|]. apply FST in Y1. eapply bef_trans; eauto. }
    assert (LT : length (tl d) = S (length (tl d1))) by (rewrite <- (Permutation_length PT); reflexivity).
    destruct dup.
    { intros U. apply uk_app in U. destruct U as [U _]. apply uniq_of, U1 in U. discriminate. }
    specialize (H1 eq_refl). clear U1. destruct (nth i rest []) as [|y s] eqn:N.
    + assert (R := IH d1 rest ltac:(lia) L2 H1 O).
      destruct (merge_loop c f d1 rest) as [out| | |]; cbn [lbind];
        (assert (C' : forall j z, In z (nth j rest []) -> exists y, In (y, j) (tl d1) /\ bef y z);
          [intros j z I; destruct (C j z I) as [y [Y1 Y2]]; apply (Permutation_in _ (Permutation_sym PT)) in Y1; destruct Y1 as [Y1|Y1]; [inversion Y1; subst; rewrite N in I; destruct I|]; exists y; auto|]); specialize (R C').
      * destruct R as [R1 R2]. split.
        -- constructor; [|exact R1]. apply Forall_forall. intros z I. apply (Permutation_in _ (Permutation_sym R2)) in I. apply in_app_or in I. destruct I as [I|I]; [|apply RST; exact I].
           apply in_map_iff in I. destruct I as [n [<- I]]. apply FST. exact I.
        -- eapply Permutation_trans; [apply Permutation_app_tail; symmetry; exact PM|]. cbn. apply perm_skip. exact R2.
      * intros U. apply R. eapply uniq_perm in U; [|exact ok|apply Permutation_app_tail; symmetry; exact PM]. inversion U; auto.
      * exact R.
      * intros U. apply R. eapply uniq_perm in U; [|exact ok|apply Permutation_app_tail; symmetry; exact PM]. inversion U; auto.
    + assert (IL := nth_lt _ _ _ _ N). assert (PC := lset_perm _ _ _ _ N). assert (GI := insert_ok c ok d1 (y, i) L2 H1). destruct (pq_insert c d1 (y, i)) as [d2 dup2].
      destruct GI as [G1 [G2 [G3 [G4 [G5 _]]]]]. cbn [fst snd] in *. rewrite app_length in G1. cbn in G1.
      assert (G3' : dget d2 0 = dget d1 0) by (rewrite G3; unfold dget; apply app_nth1; lia).
      assert (P2 : Permutation (tl d2) ((y, i) :: tl d1)) by (apply tl_perm_snoc; auto; lia).
      assert (PM2 : Permutation (map fst (tl d2)) (y :: map fst (tl d1))) by (apply (Permutation_map fst) in P2; exact P2).
      assert (PALL : Permutation (map fst (tl d) ++ concat rest) (x :: map fst (tl d2) ++ concat (lset rest i s))).
      { eapply Permutation_trans; [apply Permutation_app; [symmetry; exact PM|exact PC]|]. cbn. apply perm_skip. eapply Permutation_trans; [symmetry; apply Permutation_middle|].
        change (y :: map fst (tl d1) ++ concat (lset rest i s)) with ((y :: map fst (tl d1)) ++ concat (lset rest i s)). apply Permutation_app_tail. symmetry. exact PM2. }
      assert (YX : bef x y). { apply RST. eapply Permutation_in; [symmetry; exact PC|]. left. reflexivity. }
      destruct dup2.
      { intros U. eapply uniq_perm in U; [|exact ok|exact PALL]. inversion U as [|? ? _ U']; subst. apply uk_app in U'. destruct U' as [U' _].
        assert (true = false); [|discriminate]. apply G5. apply uniq_of. eapply uniq_perm; [exact ok| |exact U']. apply Permutation_map. eapply Permutation_trans; [exact P2|].
        destruct d1 as [|h t]; [cbn in L2; lia|]. cbn. apply Permutation_cons_append. }
      specialize (G4 eq_refl).
      assert (OS : in_order c (y :: s)). { rewrite <- N. eapply Forall_forall; [exact O|]. apply nth_In. exact IL. }
      inversion OS as [|? ? OS1 OS2]; subst.
      assert (R := IH d2 (lset rest i s)). destruct (merge_loop c f d2 (lset rest i s)) as [out| | |]; cbn [lbind];
        (assert (C' : forall j z, In z (nth j (lset rest i s) []) -> exists y, In (y, j) (tl d2) /\ bef y z);
          [intros j z I; rewrite lset_nth in I by exact IL; destruct (Nat.eqb_spec j i) as [E0|NE];
            [subst j; exists y; split; [eapply Permutation_in; [symmetry; exact P2|left; reflexivity]|eapply Forall_forall; [exact OS1|exact I]]
            |destruct (C j z I) as [w [Y1 Y2]]; exists w; split; [|exact Y2]; apply (Permutation_in _ (Permutation_sym PT)) in Y1; destruct Y1 as [Y1|Y1]; [inversion Y1; subst; contradiction|];
             eapply Permutation_in; [symmetry; exact P2|right; exact Y1]]|]);
        (assert (LL : length (tl d2) + length (concat (lset rest i s)) <= f); [apply Permutation_length in PALL; rewrite app_length, map_length in PALL; cbn in PALL; rewrite app_length, map_length in PALL; lia|]);
        specialize (R LL ltac:(lia) G4 (lset_Forall _ _ _ _ O OS2) C').
      * destruct R as [R1 R2]. split.
        -- constructor; [|exact R1]. apply Forall_forall. intros z I. apply (Permutation_in _ (Permutation_sym R2)) in I. apply in_app_or in I. destruct I as [I|I].
           ++ apply (Permutation_in _ PM2) in I. destruct I as [<-|I]; [exact YX|]. apply in_map_iff in I. destruct I as [n [<- I]]. apply FST. exact I.
           ++ apply RST. eapply Permutation_in; [symmetry; exact PC|]. right. exact I.
        -- eapply Permutation_trans; [exact PALL|]. apply perm_skip. exact R2.
      * intros U. apply R. eapply uniq_perm in U; [|exact ok|exact PALL]. inversion U; auto.
      * exact R.
      * intros U. apply R. eapply uniq_perm in U; [|exact ok|exact PALL]. inversion U; auto.
Qed.

Lemma load_heap_ok srcs : forall d i, 1 <= length d -> heap c d -> Forall (in_order c) srcs ->
  match load_heap c d i srcs with
  | LOk (d', rest) => 1 <= length d' /\ heap c d' /\ Forall (in_order c) rest /\ Permutation (map fst (tl d) ++ concat srcs) (map fst (tl d') ++ concat rest) /\
      (forall n, In n (tl d) -> In n (tl d')) /\ (forall j x, In x (nth j rest []) -> exists y, In (y, i + j) (tl d') /\ bef y x)
  | LDup => ~ uk (map fst (tl d) ++ concat srcs)
  | _ => False
  end.
Proof.
  induction srcs as [|[|x s] srcs IH]; intros d i L Hd O; cbn [load_heap].
  - repeat split; auto. intros j x I. destruct j; destruct I.
  - inversion O; subst. assert (R := IH d (S i) L Hd H2). destruct (load_heap c d (S i) srcs) as [[d' rest]| | |]; cbn [lbind concat app]; auto.
    destruct R as [R1 [R2 [R3 [R4 [R5 R6]]]]]. repeat split; auto. intros [|j] z I; [destruct I|]. rewrite Nat.add_succ_r. apply R6. exact I.
  - inversion O as [|? ? OS O']; subst. inversion OS as [|? ? OS1 OS2]; subst. assert (GI := insert_ok c ok d (x, i) L Hd). destruct (pq_insert c d (x, i)) as [d1 dup].
    destruct GI as [G1 [G2 [G3 [G4 [G5 _]]]]]. cbn [fst snd] in *. rewrite app_length in G1. cbn in G1.
    assert (G3' : dget d1 0 = dget d 0) by (rewrite G3; unfold dget; apply app_nth1; lia).
    assert (P2 : Permutation (tl d1) ((x, i) :: tl d)) by (apply tl_perm_snoc; auto; lia).
    assert (PM2 : Permutation (map fst (tl d1)) (x :: map fst (tl d))) by (apply (Permutation_map fst) in P2; exact P2).
    assert (PALL : Permutation (map fst (tl d) ++ concat ((x :: s) :: srcs)) (s ++ map fst (tl d1) ++ concat srcs)).
    { cbn. eapply Permutation_trans; [symmetry; apply Permutation_middle|]. rewrite !app_assoc. change (x :: (map fst (tl d) ++ s) ++ concat srcs) with ((x :: map fst (tl d) ++ s) ++ concat srcs). apply Permutation_app_tail.
      change (x :: map fst (tl d) ++ s) with ((x :: map fst (tl d)) ++ s). eapply Permutation_trans; [apply Permutation_app_comm|]. apply Permutation_app_head. symmetry. exact PM2. }
    destruct dup.
    { intros U. eapply uniq_perm in U; [|exact ok|exact PALL]. apply uk_app in U. destruct U as [_ U]. apply uk_app in U. destruct U as [U _].
      assert (true = false); [|discriminate]. apply G5. apply uniq_of. eapply uniq_perm; [exact ok| |exact U]. apply Permutation_map. eapply Permutation_trans; [exact P2|].
      destruct d as [|h t]; [cbn in L; lia|]. cbn. apply Permutation_cons_append. }
    specialize (G4 eq_refl). assert (R := IH d1 (S i) ltac:(lia) G4 O'). destruct (load_heap c d1 (S i) srcs) as [[d' rest]| | |]; cbn [lbind]; auto.
    + destruct R as [R1 [R2 [R3 [R4 [R5 R6]]]]]. split; [exact R1|]. split; [exact R2|]. split; [constructor; auto|]. split; [|split].
      * eapply Permutation_trans; [exact PALL|]. cbn. eapply Permutation_trans; [apply Permutation_app_head; exact R4|]. rewrite !app_assoc. apply Permutation_app_tail. apply Permutation_app_comm.
      * intros n I. apply R5. eapply Permutation_in; [symmetry; exact P2|]. right. exact I.
      * intros [|j] z I; cbn in I.
        -- exists x. rewrite Nat.add_0_r. split; [apply R5; eapply Permutation_in; [symmetry; exact P2|left; reflexivity]|]. eapply Forall_forall; [exact OS1|exact I].
        -- rewrite Nat.add_succ_r. apply R6. exact I.
    + intros U. apply R. eapply uniq_perm in U; [|exact ok|exact PALL]. apply uk_app in U. tauto.
Qed.

Lemma merge_some_ok srcs : Forall (in_order c) srcs ->
  match merge_some c srcs with
  | LOk out => in_order c out /\ Permutation (concat srcs) out
  | LErr => False
  | _ => ~ uk (concat srcs)
  end.
Proof.
  intros O. unfold merge_some. assert (R := load_heap_ok srcs [dummy] 0 ltac:(cbn; lia) ltac:(intros j J; cbn in J; lia) O).
  destruct (load_heap c [dummy] 0 srcs) as [[d rest]| | |]; cbn [lbind]; try (exact R); try (destruct R; fail). destruct R as [R1 [R2 [R3 [R4 [_ R6]]]]]. cbn [tl map app] in R4.
  assert (M := merge_loop_ok (length (concat srcs)) d rest). apply Permutation_length in R4 as LL. rewrite app_length, map_length in LL. specialize (M ltac:(lia) R1 R2 R3 R6).
  destruct (merge_loop c (length (concat srcs)) d rest); auto.
  - destruct M as [M1 M2]. split; [exact M1|]. eapply Permutation_trans; [exact R4|exact M2].
  - intros U. apply M. eapply uniq_perm; eauto.
  - intros U. apply M. eapply uniq_perm; eauto.
Qed.

Lemma concat_split {A} n (l : list (list A)) : concat l = concat (firstn n l) ++ concat (skipn n l).
Proof. rewrite <- concat_app, firstn_skipn. reflexivity. Qed.
Lemma Forall_firstn {A} (P : A -> Prop) n l : Forall P l -> Forall P (firstn n l).
Proof. intros F. rewrite <- (firstn_skipn n l) in F. apply Forall_app in F. tauto. Qed.
Lemma Forall_skipn {A} (P : A -> Prop) n l : Forall P l -> Forall P (skipn n l).
Proof. intros F. rewrite <- (firstn_skipn n l) in F. apply Forall_app in F. tauto. Qed.

Variable fin ear : nat.
Hypothesis fin1 : 1 <= fin.
Hypothesis ear2 : 2 <= ear.
Lemma merge_pass_ok fuel : forall fl next, length fl <= fuel -> Forall (in_order c) fl -> Forall (in_order c) next ->
  match merge_pass c ear fuel fl next with
  | LOk n => Forall (in_order c) n /\ Permutation (concat fl ++ concat next) (concat n) /\ length n <= length next + (length fl + 1) / 2
  | LErr => False
  | _ => ~ uk (concat fl ++ concat next)
  end.
Proof.
  induction fuel as [|f IH]; intros fl next F O1 O2; (destruct fl as [|a fl]; [cbn; repeat split; auto; lia|]); [cbn in F; lia|].
  cbn [merge_pass]. assert (M := merge_some_ok (firstn ear (a :: fl)) (Forall_firstn _ _ _ O1)).
  assert (CS := concat_split ear (a :: fl)).
  destruct (merge_some c (firstn ear (a :: fl))) as [m| | |]; cbn [lbind]; auto.
  - destruct M as [M1 M2]. assert (LS : length (skipn ear (a :: fl)) = length (a :: fl) - ear) by apply skipn_length. cbn [length] in LS, F.
    assert (R := IH (skipn ear (a :: fl)) (m :: next) ltac:(lia) (Forall_skipn _ _ _ O1) ltac:(constructor; auto)).
    assert (PP : Permutation (concat (a :: fl) ++ concat next) (concat (skipn ear (a :: fl)) ++ concat (m :: next))).
    { rewrite CS. cbn [concat]. eapply Permutation_trans; [apply Permutation_app_tail, Permutation_app_tail; exact M2|]. rewrite !app_assoc. apply Permutation_app_tail. apply Permutation_app_comm. }
    destruct (merge_pass c ear f (skipn ear (a :: fl)) (m :: next)) as [n| | |]; auto.
    + destruct R as [R1 [R2 R3]]. split; [exact R1|]. split; [eapply Permutation_trans; [exact PP|exact R2]|]. cbn [length] in *. lia.
    + intros U. apply R. eapply uniq_perm; [exact ok|exact PP|exact U].
    + intros U. apply R. eapply uniq_perm; [exact ok|exact PP|exact U].
  - intros U. apply uk_app in U. destruct U as [U _]. rewrite CS in U. apply uk_app in U. tauto.
  - intros U. apply uk_app in U. destruct U as [U _]. rewrite CS in U. apply uk_app in U. tauto.
Qed.

Lemma merge_files_ok fuel : forall fl, length fl <= fuel -> Forall (in_order c) fl ->
  match merge_files c fin ear fuel fl with
  | LOk out => in_order c out /\ Permutation (concat fl) out
  | LErr => False
  | _ => ~ uk (concat fl)
  end.
Proof.
  induction fuel as [|f IH]; intros fl F O; (destruct fl as [|a fl]; [cbn; repeat constructor|]); [cbn in F; lia|].
  cbn [merge_files]. destruct (Nat.leb_spec (length (a :: fl)) fin) as [L|L]; [apply merge_some_ok; exact O|].
  assert (M := merge_pass_ok (length (a :: fl)) (a :: fl) [] ltac:(lia) O ltac:(constructor)). cbn [concat] in M. rewrite app_nil_r in M.
  destruct (merge_pass c ear (length (a :: fl)) (a :: fl) []) as [n| | |]; cbn [lbind]; auto.
  destruct M as [M1 [M2 M3]]. cbn [length] in *. assert (R := IH n ltac:(lia) M1). destruct (merge_files c fin ear f n); auto.
  - destruct R as [R1 R2]. split; [exact R1|]. eapply Permutation_trans; [exact M2|exact R2].
  - intros U. apply R. eapply uniq_perm; [exact ok|exact M2|exact U].
  - intros U. apply R. eapply uniq_perm; [exact ok|exact M2|exact U].
Qed.

Variable T : nat.
Hypothesis T3 : 3 <= T.
Definition FInv (fs : fset) : Prop := Forall (in_order c) (runs fs) /\
  (have fs = true -> forall r rs, runs fs = r :: rs -> forall y, In y r -> fst y = prev_key fs \/ klt c (fst y) (prev_key fs)).
Lemma last_max l : forall x0, in_order c l -> forall y, In y l -> y = last l x0 \/ bef y (last l x0).
Proof.
  induction l as [|a l IH]; intros x0 O y I; [destruct I|]. inversion O as [|? ? O1 O2]; subst. destruct l as [|b l].
  - destruct I as [<-|[]]. left. reflexivity.
  - change (last (a :: b :: l) x0) with (last (b :: l) x0). destruct I as [<-|I]; [|apply IH; auto]. right.
    destruct (IH x0 O2 b (or_introl eq_refl)) as [E|E]; [rewrite <- E; inversion O1; auto|]. eapply bef_trans; [exact ok|inversion O1; eauto|exact E].
Qed.

Lemma sort_write_ok l fs : FInv fs ->
  match sort_and_write c T l fs with
  | LOk fs' => FInv fs' /\ Permutation (l ++ concat (runs fs)) (concat (runs fs'))
  | LDup => ~ uk l
  | _ => False
  end.
Proof.
  intros [I1 I2]. unfold sort_and_write. destruct l as [|a l]; [split; [split; auto|reflexivity]|].
  assert (R := sort_rows_ok c ok T T3 (a :: l)). destruct (sort_rows c T (a :: l)) as [s| | |]; cbn [lbind]; auto. destruct R as [R1 R2].
  destruct s as [|x s]; [apply Permutation_length in R2; discriminate|].
  assert (LM : forall y, In y (x :: s) -> fst y = fst (last (x :: s) x) \/ klt c (fst y) (fst (last (x :: s) x))).
  { intros y I. destruct (last_max _ x R1 y I) as [E|E]; [left; rewrite <- E; reflexivity|right; exact E]. }
  assert (NEW : FInv (mkFs ((x :: s) :: runs fs) true (fst (last (x :: s) x))) /\ Permutation ((a :: l) ++ concat (runs fs)) (concat (runs (mkFs ((x :: s) :: runs fs) true (fst (last (x :: s) x)))))).
  { split; [split; [constructor; auto|]|cbn [runs concat]; apply Permutation_app_tail; exact R2]. intros _ r rs E y I. cbn [runs] in E. inversion E; subst. apply LM. exact I. }
  destruct (runs fs) as [|r rs] eqn:ER; [exact NEW|]. destruct (have fs && kltb c (prev_key fs) (fst x)) eqn:HV; [|exact NEW].
  apply andb_true_iff in HV. destruct HV as [HV K]. apply kltb_true in K. inversion I1 as [|? ? O1 O2]; subst.
  assert (RX : forall y, In y r -> bef y x). { intros y I. destruct (I2 HV r rs eq_refl y I) as [E|E]; unfold before; [rewrite E; exact K|]. eapply (klt_trans ok); [exact E|exact K]. }
  split; [split|].
  - cbn [runs]. constructor; [|exact O2]. apply fop_app. split; [exact O1|]. split; [exact R1|]. intros y z Y [<-|Z]; [apply RX; exact Y|]. eapply bef_trans; [exact ok|apply RX; exact Y|]. inversion R1 as [|? ? F _]; subst. eapply Forall_forall; eauto.
  - intros _ r' rs' E y I. cbn [runs prev_key] in *. inversion E; subst. apply in_app_or in I. destruct I as [I|I]; [|apply LM; exact I]. right. apply RX in I. unfold before in I.
    destruct (LM x (or_introl eq_refl)) as [E1|E1]; [rewrite <- E1; exact I|]. eapply (klt_trans ok); [exact I|exact E1].
  - cbn [runs concat]. eapply Permutation_trans; [apply Permutation_app_tail; exact R2|]. rewrite !app_assoc. apply Permutation_app_tail. apply Permutation_app_comm.
Qed.

Variable wf : list row -> row -> bool.
Lemma add_rows_ok new : forall rows fs, FInv fs ->
  match add_rows c T wf rows fs new with
  | LOk (rows', fs') => FInv fs' /\ Permutation (rows ++ new ++ concat (runs fs)) (rows' ++ concat (runs fs'))
  | LDup => ~ uk (rows ++ new)
  | _ => False
  end.
Proof.
  induction new as [|x new IH]; intros rows fs I; cbn [add_rows]; [split; [exact I|reflexivity]|]. destruct (wf rows x).
  - assert (R := sort_write_ok rows fs I). destruct (sort_and_write c T rows fs) as [fs1| | |]; cbn [lbind]; auto.
    + destruct R as [R1 R2]. assert (Q := IH [x] fs1 R1). destruct (add_rows c T wf [x] fs1 new) as [[rows' fs']| | |]; auto.
      * destruct Q as [Q1 Q2]. split; [exact Q1|]. eapply Permutation_trans; [|exact Q2]. cbn [app]. eapply Permutation_trans; [symmetry; apply Permutation_middle|]. apply perm_skip.
        eapply Permutation_trans; [rewrite app_assoc; apply Permutation_app_tail, Permutation_app_comm|]. rewrite <- app_assoc. apply Permutation_app_head. exact R2.
      * intros U. apply Q. apply uk_app in U. tauto.
    + intros U. apply R. apply uk_app in U. tauto.
  - assert (Q := IH (rows ++ [x]) fs I). destruct (add_rows c T wf (rows ++ [x]) fs new) as [[rows' fs']| | |]; auto; rewrite <- app_assoc in Q; exact Q.
Qed.

Variable gen : row -> option (list row).
Lemma extract_ok puts : forall rows fs, FInv fs ->
  match extract c T wf gen rows fs puts with
  | LOk fs' => exists al, all_rows gen puts = Some al /\ FInv fs' /\ Permutation (rows ++ al ++ concat (runs fs)) (concat (runs fs'))
  | LDup => forall al, all_rows gen puts = Some al -> ~ uk (rows ++ al ++ concat (runs fs))
  | LErr => all_rows gen puts = None
  | LBug => False
  end.
Proof.
  induction puts as [|p puts IH]; intros rows fs I; cbn [extract all_rows].
  - assert (R := sort_write_ok rows fs I). destruct (sort_and_write c T rows fs) as [fs1| | |]; try contradiction.
    + exists []. destruct R. auto.
    + intros al _ U. apply uk_app in U. tauto.
  - destruct (gen p) as [new|]; [|reflexivity]. assert (R := add_rows_ok new rows fs I). destruct (add_rows c T wf rows fs new) as [[rows' fs']| | |]; cbn [lbind]; try contradiction.
    + destruct R as [R1 R2]. assert (Q := IH rows' fs' R1).
      assert (PP : forall b, Permutation (rows ++ (new ++ b) ++ concat (runs fs)) (rows' ++ b ++ concat (runs fs'))).
      { intros b. eapply Permutation_trans with (b ++ rows ++ new ++ concat (runs fs)).
        - rewrite <- app_assoc, !app_assoc. apply Permutation_app_tail. rewrite <- (app_assoc b). apply Permutation_app_comm.
        - eapply Permutation_trans; [apply Permutation_app_head; exact R2|]. rewrite !app_assoc. apply Permutation_app_tail. apply Permutation_app_comm. }
      destruct (extract c T wf gen rows' fs' puts) as [fs2| | |]; auto.
      * destruct Q as [al [Q1 [Q2 Q3]]]. rewrite Q1. exists (new ++ al). split; [reflexivity|]. split; [exact Q2|]. eapply Permutation_trans; [apply PP|exact Q3].
      * intros al E U. destruct (all_rows gen puts) as [b|]; [|discriminate]. inversion E; subst. apply (Q b eq_refl). eapply uniq_perm; [exact ok|apply PP|exact U].
      * rewrite Q. reflexivity.
    + intros al E U. destruct (all_rows gen puts) as [b|]; [|discriminate]. inversion E; subst. apply R. rewrite <- app_assoc, app_assoc in U. apply uk_app in U. tauto.
Qed.

Lemma load_ok puts :
  match ldr_load c T wf gen fin ear puts with
  | LOk out => exists al, all_rows gen puts = Some al /\ in_order c out /\ Permutation al out
  | LErr => all_rows gen puts = None
  | _ => forall al, all_rows gen puts = Some al -> ~ uk al
  end.
Proof.
  unfold ldr_load. assert (E := extract_ok puts [] (mkFs [] false []) ltac:(split; [constructor|discriminate])). cbn [runs concat app] in E.
  destruct (extract c T wf gen [] (mkFs [] false []) puts) as [fs| | |]; cbn [lbind]; auto.
  - destruct E as [al [E1 [[E2 _] E3]]]. rewrite app_nil_r in E3. assert (M := merge_files_ok (length (runs fs)) (runs fs) ltac:(lia) E2).
    destruct (merge_files c fin ear (length (runs fs)) (runs fs)) as [out| | |]; try contradiction.
    + destruct M as [M1 M2]. exists al. split; [exact E1|]. split; [exact M1|]. eapply Permutation_trans; [exact E3|exact M2].
    + intros al' A U. rewrite E1 in A. inversion A; subst. apply M. eapply uniq_perm; [exact ok|exact E3|exact U].
    + intros al' A U. rewrite E1 in A. inversion A; subst. apply M. eapply uniq_perm; [exact ok|exact E3|exact U].
  - intros al A U. apply (E al A). rewrite app_nil_r. exact U.
Qed.

Lemma sorted_eq a : forall b, in_order c a -> in_order c b -> Permutation a b -> a = b.
Proof.
  induction a as [|x a IH]; intros b A B P; [apply Permutation_nil in P; auto|]. destruct b as [|y b]; [apply Permutation_sym, Permutation_nil in P; discriminate|].
  inversion A as [|? ? A1 A2]; subst. inversion B as [|? ? B1 B2]; subst.
  assert (x = y).
  { assert (I1 : In x (y :: b)) by (eapply Permutation_in; [exact P|left; reflexivity]). assert (I2 : In y (x :: a)) by (eapply Permutation_in; [symmetry; exact P|left; reflexivity]).
    destruct I1 as [|I1]; [congruence|]. destruct I2 as [|I2]; [congruence|]. rewrite Forall_forall in A1, B1. specialize (A1 _ I2). specialize (B1 _ I1). unfold before in *. exfalso. kord ok. }
  subst y. f_equal. apply IH; auto. eapply Permutation_cons_inv; exact P.
Qed.

(** With at most two sources in a merge a pop compares nothing. *)
Lemma pop_small d x d' dup : length d <= 3 -> 2 <= length d -> pq_pop c d = (x, (d', dup)) -> dup = false /\ length d' = length d - 1.
Proof.
  intros L L2 H. unfold pq_pop in H. destruct d as [|a [|b [|e [|]]]]; cbn in L, L2; try lia; cbn in H; inversion H; subst; split; reflexivity.
Qed.
Lemma bubble_len fuel : forall d i mv dup, length (fst (bubble_up c fuel d i mv dup)) = length d.
Proof.
  induction fuel as [|f IH]; intros; cbn [bubble_up]; [apply dset_length|]. destruct (1 <? i); [|apply dset_length]. destruct (pcmp c _ mv) as [[|] e]; [|apply dset_length]. rewrite IH. apply dset_length.
Qed.
Lemma merge_loop_small fuel : forall d rest, length d <= 3 -> length (tl d) + length (concat rest) <= fuel -> merge_loop c fuel d rest <> LBug.
Proof.
  induction fuel as [|f IH]; intros d rest L F.
  - cbn [merge_loop]. destruct (Nat.leb_spec (length d) 1) as [|G]; [discriminate|]. destruct d as [|a [|]]; cbn in G, F; lia.
  - cbn [merge_loop]. destruct (Nat.leb_spec (length d) 1) as [|G]; [discriminate|]. destruct (pq_pop c d) as [[x i] [d1 dup]] eqn:P.
    destruct (pop_small _ _ _ _ L ltac:(lia) P) as [-> L1].
    assert (LT : forall (l : list node), length (tl l) = length l - 1) by (intros [|]; cbn; lia).
    destruct (nth i rest []) as [|y s] eqn:N.
    + assert (R := IH d1 rest ltac:(lia) ltac:(rewrite LT in *; lia)). destruct (merge_loop c f d1 rest); cbn [lbind]; congruence.
    + assert (PC := lset_perm _ _ _ _ N). apply Permutation_length in PC. cbn [length] in PC.
      assert (LI : length (fst (pq_insert c d1 (y, i))) = length d1 + 1) by (unfold pq_insert; rewrite bubble_len, app_length; reflexivity).
      destruct (pq_insert c d1 (y, i)) as [d2 dup2]. cbn [fst] in LI. destruct dup2; [discriminate|].
      assert (R := IH d2 (lset rest i s) ltac:(lia) ltac:(rewrite LT in *; lia)). destruct (merge_loop c f d2 (lset rest i s)); cbn [lbind]; congruence.
Qed.
Lemma load_heap_len srcs : forall d i d' rest, load_heap c d i srcs = LOk (d', rest) -> length d' <= length d + length srcs.
Proof.
  induction srcs as [|[|x s] srcs IH]; intros d i d' rest H; cbn [load_heap] in H.
  - inversion H. lia.
  - destruct (load_heap c d (S i) srcs) as [[d1 r1]| | |] eqn:E; try discriminate. apply IH in E. cbn [lbind] in H. inversion H; subst. cbn. lia.
  - assert (LI : length (fst (pq_insert c d (x, i))) = length d + 1) by (unfold pq_insert; rewrite bubble_len, app_length; reflexivity).
    destruct (pq_insert c d (x, i)) as [d2 [|]]; [discriminate|]. cbn [fst] in LI. destruct (load_heap c d2 (S i) srcs) as [[d1 r1]| | |] eqn:E; try discriminate. apply IH in E. cbn [lbind] in H. inversion H; subst. cbn. lia.
Qed.
Lemma merge_some_small srcs : Forall (in_order c) srcs -> length srcs <= 2 -> merge_some c srcs <> LBug.
Proof.
  intros O L. unfold merge_some. assert (R := load_heap_ok srcs [dummy] 0 ltac:(cbn; lia) ltac:(intros j J; cbn in J; lia) O).
  destruct (load_heap c [dummy] 0 srcs) as [[d rest]| | |] eqn:E; cbn [lbind]; try discriminate; [|destruct R]. apply load_heap_len in E. cbn in E.
  destruct R as [_ [_ [_ [R4 _]]]]. apply Permutation_length in R4. cbn [tl map app] in R4. rewrite app_length, map_length in R4. apply merge_loop_small; lia.
Qed.
Lemma merge_pass_small fuel : ear = 2 -> forall fl next, length fl <= fuel -> Forall (in_order c) fl -> merge_pass c ear fuel fl next <> LBug.
Proof.
  intros E2. induction fuel as [|f IH]; intros fl next F O; (destruct fl as [|a fl]; [discriminate|]); [cbn in F; lia|]. cbn [merge_pass].
  assert (M := merge_some_small (firstn ear (a :: fl)) (Forall_firstn _ _ _ O) ltac:(rewrite firstn_length; lia)).
  destruct (merge_some c (firstn ear (a :: fl))) as [m| | |]; cbn [lbind]; try congruence. apply IH; [rewrite skipn_length; cbn [length] in *; lia|apply Forall_skipn, O].
Qed.
Lemma merge_files_small fuel : ear = 2 -> fin <= 2 -> forall fl, length fl <= fuel -> Forall (in_order c) fl -> merge_files c fin ear fuel fl <> LBug.
Proof.
  intros E2 F2. induction fuel as [|f IH]; intros fl F O; (destruct fl as [|a fl]; [discriminate|]); [cbn in F; lia|]. cbn [merge_files].
  destruct (Nat.leb_spec (length (a :: fl)) fin) as [L|L]; [apply merge_some_small; [exact O|lia]|].
  assert (M := merge_pass_small (length (a :: fl)) E2 (a :: fl) [] ltac:(lia) O). assert (K := merge_pass_ok (length (a :: fl)) (a :: fl) [] ltac:(lia) O ltac:(constructor)).
  destruct (merge_pass c ear (length (a :: fl)) (a :: fl) []) as [n| | |]; cbn [lbind]; try congruence. destruct K as [K1 [_ K3]]. cbn [length] in *. apply IH; [lia|exact K1].
Qed.
Lemma load_small puts : ear = 2 -> fin <= 2 -> ldr_load c T wf gen fin ear puts <> LBug.
Proof.
  intros E2 F2. unfold ldr_load. assert (E := extract_ok puts [] (mkFs [] false []) ltac:(split; [constructor|discriminate])). cbn [runs concat app] in E.
  destruct (extract c T wf gen [] (mkFs [] false []) puts) as [fs| | |]; cbn [lbind]; try discriminate; [|destruct E]. destruct E as [al [_ [[E _] _]]]. apply merge_files_small; auto.
Qed.
End M.
