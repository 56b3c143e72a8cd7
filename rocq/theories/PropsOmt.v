(** C31: the order maintenance tree is a sequence, whatever representation it is in. *)
From Verif Require Import Base Bytes PkModel PkProofs OmtModel OmtSpec OmtProofs OmtOps OmtIter.
Open Scope nat_scope.

Section C31.
Context {A : Type}.
Definition unmarked (ml : list (A * bool)) : Prop := Forall (fun x => snd x = false) ml.
Definition plain (l : list A) : list (A * bool) := map (fun v => (v, false)) l.

(** Everything that can happen to these trees, with the sequence each of them ought to be: the
    values, each with its mark.  [sm] says whether marks are supported.  Every step may find
    anything in freshly allocated memory ([j]).  The object that merge and clone are called on
    ([this]) was created before and has no marks. *)
Inductive means (sm : bool) : omt A -> list (A * bool) -> Prop :=
| m_create j o : create j sm = Some o -> means sm o []
| m_create_no_array : means sm (create_no_array sm) []
| m_sorted j a l b o : create_from_sorted_array j sm (a ++ l ++ b) (length a) (length l) = Some o -> means sm o (plain l)
| m_steal l rest o : create_steal_sorted_array sm (l ++ rest) (length l) (length (l ++ rest)) = Some o -> means sm o (plain l)
| m_insert_at j o ml v i o' : means sm o ml -> insert_at j sm o v i = Some (Ok, o') -> means sm o' (firstn i ml ++ (v, false) :: skipn i ml)
| m_set_at o ml v i o' : means sm o ml -> set_at sm o v i = Some (Ok, o') -> means sm o' (firstn i ml ++ (v, false) :: skipn (S i) ml)
| m_delete_at j o ml i o' : means sm o ml -> delete_at j sm o i = Some (Ok, o') -> means sm o' (firstn i ml ++ skipn (S i) ml)
| m_split_here j o ml i o1 o2 : means sm o ml -> split_at j sm o i = Some (Ok, o1, Some o2) -> means sm o1 (firstn i ml)
| m_split_new j o ml i o1 o2 : means sm o ml -> split_at j sm o i = Some (Ok, o1, Some o2) -> means sm o2 (skipn i ml)
| m_merge j this tl a al b bl o : means sm this tl -> means sm a al -> means sm b bl -> merge j sm this a b = Some o -> means sm o (plain (map fst al ++ map fst bl))
| m_clone j this tl a al o : means sm this tl -> means sm a al -> clone j sm this a = Some o -> means sm o (plain (map fst al))
| m_clear o ml : means sm o ml -> means sm (clear o) []
| m_change X (g : A -> nat -> X -> A * X * Z) o ml x o' ml' x' x'' : means sm o ml -> iterate_ptr g o x = Some (o', x') ->
    walk_change g 0 ml x = Some (ml', x'') -> means sm o' ml'
| m_mark X (f : A -> nat -> X -> X * Z) o ml lo hi x o' r ml' x' z : sm = true -> means sm o ml -> lo < hi -> hi <= length ml ->
    iterate_and_mark_range f o lo hi x = Some (o', r) -> walk_mark f lo hi 0 ml x = (ml', x', z) -> means sm o' ml'
| m_delete_marked j o ml o' : sm = true -> means sm o ml -> delete_all_marked j sm o = Some o' -> means sm o' (filter (fun x => negb (snd x)) ml).

Lemma unmarked_anym ml : unmarked ml <-> anym ml = false.
Proof.
  unfold unmarked, anym. induction ml as [|[v m] ml IH]; cbn; [split; auto|]. rewrite Forall_cons_iff, orb_false_iff, IH. cbn. tauto.
Qed.
Lemma map_ins i (v : A) l : unm (ins i v l) = firstn i (unm l) ++ (v, false) :: skipn i (unm l).
Proof. unfold ins, unm. rewrite map_app. cbn [map]. now rewrite firstn_map, skipn_map. Qed.
Lemma map_upd i (v : A) l : unm (upd i v l) = firstn i (unm l) ++ (v, false) :: skipn (S i) (unm l).
Proof. unfold upd, unm. rewrite map_app. cbn [map]. now rewrite firstn_map, skipn_map. Qed.
Lemma map_rm i (l : list A) : unm (rm i l) = firstn i (unm l) ++ skipn (S i) (unm l).
Proof. unfold rm, unm. rewrite map_app. now rewrite firstn_map, skipn_map. Qed.

Ltac open_rep R := match type of R with Rep ?sm ?o ?ml => let S := fresh "S" in let H := fresh "U" in let E := fresh "EM" in
  destruct (anym ml) eqn:Q; [pose proof (barf_ok _ _ _ R) as BF; rewrite Q in BF; cbn in BF|
     destruct (Rep_U _ _ _ R Q) as (S & H & E); pose proof (barf_ok _ _ _ R) as BF; rewrite Q in BF; cbn in BF] end.

Lemma means_rep sm o ml : means sm o ml -> Rep sm o ml.
Proof.
  induction 1 as [j o C| |j a l b o C|l rest o C|j o ml v i o' _ R C|o ml v i o' _ R C|j o ml i o' _ R C|j o ml i o1 o2 _ R C|j o ml i o1 o2 _ R C
    |j this tl a al b bl o _ RT _ RA _ RB C|j this tl a al o _ RT _ RA C|o ml _ R|X g o ml x o' ml' x' x'' _ R C W|X f o ml lo hi x o' r ml' x' z SM _ R L1 L2 C W|j o ml o' SM _ R C].
  - destruct (create_ok j sm) as (o1 & E & H & S). rewrite C in E. injection E as <-. now apply (U_Rep sm o []).
  - destruct (create_no_array_ok (A:=A) sm) as (H & S). now apply (U_Rep sm _ []).
  - destruct (from_sorted_ok j sm a l b (length a) (length l) eq_refl eq_refl) as (o1 & E & H & S). rewrite C in E. injection E as <-. now apply U_Rep.
  - destruct (steal_ok sm l rest _ eq_refl) as (o1 & E & H & S). rewrite C in E. injection E as <-. now apply U_Rep.
  - open_rep R; [unfold insert_at in C; rewrite BF in C; discriminate|]. rewrite EM, <- map_ins. destruct (Nat.le_gt_cases i (length (map fst ml))) as [L|L].
    + destruct (insert_at_ok j sm o _ v i U S BF L) as (o1 & E & H1 & S1). rewrite C in E. injection E as <-. now apply U_Rep.
    + unfold insert_at in C. rewrite BF, (U_size _ _ U) in C. destruct (Nat.ltb_spec (length (map fst ml)) i); [discriminate|lia].
  - open_rep R; [unfold set_at in C; rewrite BF in C; discriminate|]. rewrite EM, <- map_upd. destruct (Nat.lt_ge_cases i (length (map fst ml))) as [L|L].
    + destruct (set_at_ok sm o _ v i U S BF L) as (o1 & E & H1 & S1). rewrite C in E. injection E as <-. now apply U_Rep.
    + unfold set_at in C. rewrite BF, (U_size _ _ U) in C. destruct (Nat.leb_spec (length (map fst ml)) i); [discriminate|lia].
  - open_rep R; [unfold delete_at in C; rewrite BF in C; discriminate|]. rewrite EM, <- map_rm. destruct (Nat.lt_ge_cases i (length (map fst ml))) as [L|L].
    + destruct (delete_at_ok j sm o _ i U S BF L) as (o1 & E & H1 & S1). rewrite C in E. injection E as <-. now apply U_Rep.
    + unfold delete_at in C. rewrite BF, (U_size _ _ U) in C. destruct (Nat.leb_spec (length (map fst ml)) i); [discriminate|lia].
  - open_rep R; [unfold split_at in C; rewrite BF in C; discriminate|]. rewrite EM. unfold unm. rewrite firstn_map. destruct (Nat.le_gt_cases i (length (map fst ml))) as [L|L].
    + destruct (split_at_ok j sm o _ i U BF L) as (p1 & p2 & E & H1 & S1 & H2 & S2). rewrite C in E. injection E as <- <-. now apply U_Rep.
    + unfold split_at in C. rewrite BF, (U_size _ _ U) in C. destruct (Nat.ltb_spec (length (map fst ml)) i); [discriminate|lia].
  - open_rep R; [unfold split_at in C; rewrite BF in C; discriminate|]. rewrite EM. unfold unm. rewrite skipn_map. destruct (Nat.le_gt_cases i (length (map fst ml))) as [L|L].
    + destruct (split_at_ok j sm o _ i U BF L) as (p1 & p2 & E & H1 & S1 & H2 & S2). rewrite C in E. injection E as <- <-. now apply U_Rep.
    + unfold split_at in C. rewrite BF, (U_size _ _ U) in C. destruct (Nat.ltb_spec (length (map fst ml)) i); [discriminate|lia].
  - destruct (barf sm this) eqn:BF; [|unfold merge in C; rewrite BF in C; discriminate].
    assert (SA : smok sm a) by (destruct a; cbn in *; tauto).
    destruct (merge_ok j sm this a b _ _ (Rep_V _ _ _ RA) (Rep_V _ _ _ RB) SA BF) as (o1 & E & H1 & S1). rewrite C in E. injection E as <-. now apply U_Rep.
  - destruct (barf sm this) eqn:BF; [|unfold clone in C; rewrite BF in C; discriminate].
    destruct (clone_ok j sm this a _ (Rep_V _ _ _ RA) BF) as (o1 & E & H1 & S1). rewrite C in E. injection E as <-. now apply U_Rep.
  - now apply clear_ok in R.
  - pose proof (iterate_ptr_ok g sm o ml x R) as P. rewrite C in P. destruct P as (ml2 & E & R'). rewrite W in E. injection E as <- _. exact R'.
  - subst sm. destruct (mark_ok f o ml lo hi x R L1 L2) as (o1 & ml1 & x1 & z1 & E & W1 & R1). rewrite C in E. rewrite W in W1. injection E as <- _. injection W1 as <- _ _. exact R1.
  - subst sm. destruct (delete_all_marked_ok j o ml R) as (o1 & E & R1). rewrite C in E. injection E as <-. exact R1.
Qed.

(** What is seen by index: the size, and every value; an index out of range is refused. *)
Theorem C31_size_and_fetch : forall sm o ml, means sm o ml ->
  size o = length ml /\
  (forall i v m, nth_error ml i = Some (v, m) -> fetch o i = Some (Ok, Some v)) /\
  (forall i, length ml <= i -> fetch o i = Some (Einval, None)).
Proof.
  intros sm o ml M. apply means_rep in M. split; [exact (Rep_size _ _ _ M)|]. split; intros i.
  - intros v m N. rewrite (fetch_ok o _ i (Rep_V _ _ _ M)). rewrite (map_nth_error fst _ _ N). reflexivity.
  - intros L. rewrite (fetch_ok o _ i (Rep_V _ _ _ M)). destruct (nth_error (map fst ml) i) eqn:E; [|reflexivity].
    assert (NN : nth_error (map fst ml) i <> None) by congruence. apply nth_error_Some in NN. rewrite map_length in NN. lia.
Qed.

(** The changes succeed on every sequence without marks and give the sequence expected (as in
    [means]); an index out of range is refused and nothing changes. *)
Theorem C31_changes_succeed : forall sm o ml, means sm o ml -> unmarked ml -> forall j v i,
  (i <= length ml -> exists o', insert_at j sm o v i = Some (Ok, o') /\ means sm o' (firstn i ml ++ (v, false) :: skipn i ml)) /\
  (i < length ml -> exists o', set_at sm o v i = Some (Ok, o') /\ means sm o' (firstn i ml ++ (v, false) :: skipn (S i) ml)) /\
  (i < length ml -> exists o', delete_at j sm o i = Some (Ok, o') /\ means sm o' (firstn i ml ++ skipn (S i) ml)) /\
  (i <= length ml -> exists o1 o2, split_at j sm o i = Some (Ok, o1, Some o2) /\ means sm o1 (firstn i ml) /\ means sm o2 (skipn i ml)) /\
  (length ml < i -> insert_at j sm o v i = Some (Einval, o) /\ split_at j sm o i = Some (Einval, o, None)) /\
  (length ml <= i -> set_at sm o v i = Some (Einval, o) /\ delete_at j sm o i = Some (Einval, o)).
Proof.
  intros sm o ml M UM j v i. pose proof (means_rep _ _ _ M) as R. apply unmarked_anym in UM. destruct (Rep_U _ _ _ R UM) as (S & U & EM).
  pose proof (barf_ok _ _ _ R) as BF. rewrite UM in BF. cbn in BF. assert (LM : length (map fst ml) = length ml) by apply map_length.
  split; [|split; [|split; [|split; [|split]]]]; intros L.
  - destruct (insert_at_ok j sm o _ v i U S BF) as (o' & E & _); [lia|]. exists o'. split; auto. eapply m_insert_at; eauto.
  - destruct (set_at_ok sm o _ v i U S BF) as (o' & E & _); [lia|]. exists o'. split; auto. eapply m_set_at; eauto.
  - destruct (delete_at_ok j sm o _ i U S BF) as (o' & E & _); [lia|]. exists o'. split; auto. eapply m_delete_at; eauto.
  - destruct (split_at_ok j sm o _ i U BF) as (o1 & o2 & E & _); [lia|]. exists o1, o2. split; auto. split; [eapply m_split_here|eapply m_split_new]; eauto.
  - unfold insert_at, split_at. rewrite BF, (U_size _ _ U), LM. destruct (Nat.ltb_spec (length ml) i); [|lia]. auto.
  - unfold set_at, delete_at. rewrite BF, (U_size _ _ U), LM. destruct (Nat.leb_spec (length ml) i); [|lia]. auto.
Qed.

(** While there are marks, these changes are refused: the process stops. *)
Theorem C31_marks_forbid_changes : forall sm o ml, means sm o ml -> ~ unmarked ml -> forall j v i,
  insert_at j sm o v i = None /\ set_at sm o v i = None /\ delete_at j sm o i = None /\ split_at j sm o i = None.
Proof.
  intros sm o ml M UM j v i. pose proof (means_rep _ _ _ M) as R. rewrite unmarked_anym in UM. apply not_false_is_true in UM.
  pose proof (barf_ok _ _ _ R) as BF. rewrite UM in BF. cbn in BF. unfold insert_at, set_at, delete_at, split_at. rewrite BF. auto.
Qed.

(** Merging and cloning always succeed.  The result has the values and no marks. *)
Theorem C31_merge_and_clone : forall sm this tl a al b bl, means sm this tl -> unmarked tl -> means sm a al -> means sm b bl -> forall j,
  (exists o, merge j sm this a b = Some o /\ means sm o (plain (map fst al ++ map fst bl))) /\
  (exists o, clone j sm this a = Some o /\ means sm o (plain (map fst al))).
Proof.
  intros sm this tl a al b bl MT UT MA MB j. pose proof (means_rep _ _ _ MT) as RT. pose proof (means_rep _ _ _ MA) as RA. pose proof (means_rep _ _ _ MB) as RB.
  apply unmarked_anym in UT. pose proof (barf_ok _ _ _ RT) as BF. rewrite UT in BF. cbn in BF.
  assert (SA : smok sm a) by (destruct a; cbn in *; tauto). split.
  - destruct (merge_ok j sm this a b _ _ (Rep_V _ _ _ RA) (Rep_V _ _ _ RB) SA BF) as (o & E & _). exists o. split; auto. exact (m_merge sm j this tl a al b bl o MT MA MB E).
  - destruct (clone_ok j sm this a _ (Rep_V _ _ _ RA) BF) as (o & E & _). exists o. split; auto. exact (m_clone sm j this tl a al o MT MA E).
Qed.

(** Iterating calls the function on the values of the range from left to right, with their
    indices, until it does not return 0; so does iterating over the marked values. *)
Theorem C31_iteration : forall sm o ml, means sm o ml -> forall X (f : A -> nat -> X -> X * Z) x,
  (forall lo hi, lo < hi -> hi <= length ml ->
     iterate_on_range f o lo hi x = Some (inl (walk f (fun i _ => (lo <=? i) && (i <? hi)) 0 ml x))) /\
  (forall lo hi, length ml < hi -> iterate_on_range f o lo hi x = Some (inr Einval)) /\
  (ml <> [] -> iterate f o x = Some (inl (walk f (fun _ _ => true) 0 ml x))) /\
  (ml = [] -> iterate f o x = Some (inr Ok)) /\
  (sm = true -> iterate_over_marked f o x = Some (walk f (fun _ m => m) 0 ml x)).
Proof.
  intros sm o ml M X f x. pose proof (means_rep _ _ _ M) as R. pose proof (Rep_size _ _ _ R) as SZ. split; [|split; [|split; [|split]]].
  - intros lo hi L1 L2. exact (iterate_ok f sm o ml lo hi x R L1 L2).
  - intros lo hi L. unfold iterate_on_range. rewrite SZ. destruct (Nat.ltb_spec (length ml) hi); [reflexivity|lia].
  - intros NE. unfold iterate. rewrite SZ. rewrite (iterate_ok f sm o ml 0 (length ml) x R); [|destruct ml; [congruence|cbn; lia]|lia].
    f_equal. f_equal. assert (G : forall l i hi y, i + length l <= hi -> walk f (inr_ 0 hi) i l y = walk f (fun _ _ => true) i l y).
    { induction l as [|[v m] l IH]; intros i hi y L; [reflexivity|]. cbn [walk length] in *. unfold inr_ at 1. destruct (Nat.leb_spec 0 i); [|lia].
      destruct (Nat.ltb_spec i hi); [|lia]. cbn [andb]. destruct (f v i y) as [y' z]. destruct (z =? 0)%Z; [|reflexivity]. apply IH. lia. }
    apply G. lia.
  - intros ->. unfold iterate, iterate_on_range. rewrite SZ. reflexivity.
  - intros ->. destruct o as [? ? ? ?|cap t free]; cbn [Rep] in R; [destruct R; discriminate|]. destruct R as (W & MK & -> & _). cbn. f_equal. now apply over_marked_ok.
Qed.

(** The function given to iterate_ptr may change the values in place. *)
Theorem C31_iteration_with_changes : forall sm o ml, means sm o ml -> forall X (g : A -> nat -> X -> A * X * Z) x,
  match walk_change g 0 ml x with
  | Some (ml', x') => exists o', iterate_ptr g o x = Some (o', x') /\ means sm o' ml'
  | None => iterate_ptr g o x = None
  end.
Proof.
  intros sm o ml M X g x. pose proof (iterate_ptr_ok g sm o ml x (means_rep _ _ _ M)) as P.
  destruct (iterate_ptr g o x) as [[o' x']|] eqn:E.
  - destruct P as (ml' & W & _). rewrite W. exists o'. split; auto. eapply m_change; eauto.
  - now rewrite P.
Qed.

(** Marking marks exactly the values that the function is called on, and the marked values
    are deleted all together. *)
Theorem C31_marks : forall o ml, means true o ml ->
  (forall X (f : A -> nat -> X -> X * Z) x lo hi, lo < hi -> hi <= length ml ->
     let '(ml', x', z) := walk_mark f lo hi 0 ml x in
     exists o', iterate_and_mark_range f o lo hi x = Some (o', inl (x', z)) /\ means true o' ml') /\
  (forall j, exists o', delete_all_marked j true o = Some o' /\ means true o' (filter (fun x => negb (snd x)) ml)).
Proof.
  intros o ml M. pose proof (means_rep _ _ _ M) as R. split.
  - intros X f x lo hi L1 L2. destruct (mark_ok f o ml lo hi x R L1 L2) as (o' & ml' & x' & z & E & W & _). rewrite W. exists o'. split; auto. eapply m_mark; eauto.
  - intros j. destruct (delete_all_marked_ok j o ml R) as (o' & E & _). exists o'. split; auto. eapply m_delete_marked; eauto.
Qed.

(** Searches with a function whose sign never decreases: find_zero gives the leftmost value
    with 0, or the place where one could be inserted; find gives the leftmost value above 0 or
    the rightmost value below 0.  insert puts the value at the place found. *)
Definition zero_answer (h : A -> Z) (l : list A) (q : rc * option A * nat) : Prop :=
  match q with
  | (Ok, Some v, i) => leftmost (fun x => h x = 0%Z) l v i
  | (Notfound, None, i) => i <= length l /\ Forall (fun x => (h x < 0)%Z) (firstn i l) /\ Forall (fun x => (0 < h x)%Z) (skipn i l)
  | _ => False
  end.
Theorem C31_searches : forall sm o ml, means sm o ml -> forall h, monotone h (map fst ml) ->
  (exists q, find_zero h o = Some q /\ zero_answer h (map fst ml) q) /\
  (forall d, (0 < d)%Z -> exists q, find h o d = Some q /\
     match q with Some (v, i) => leftmost (fun x => (0 < h x)%Z) (map fst ml) v i | None => Forall (fun x => ~ (0 < h x)%Z) (map fst ml) end) /\
  (forall d, (d < 0)%Z -> exists q, find h o d = Some q /\
     match q with Some (v, i) => rightmost (fun x => (h x < 0)%Z) (map fst ml) v i | None => Forall (fun x => ~ (h x < 0)%Z) (map fst ml) end).
Proof.
  intros sm o ml M h MO. pose proof (Rep_V _ _ _ (means_rep _ _ _ M)) as V. split; [|split].
  - destruct (find_zero_ok h o _ V MO) as (q & E & Z). exists q. split; auto. destruct q as [[[] [v|]] i]; cbn in Z |- *; try contradiction.
    + destruct Z as (a & b & EL & LA & HV & FA). exists a, b. split; auto. split; auto. split; auto. eapply Forall_impl; [|exact FA]. cbn. intros. lia.
    + destruct Z as (a & b & EL & LA & FA & FB). rewrite EL, firstn_app, skipn_app, firstn_all2, skipn_all2 by lia. replace (i - length a) with 0 by lia.
      cbn [firstn skipn app]. rewrite app_nil_r, app_length. split; [lia|]. auto.
  - intros d D. destruct (find_ok h o _ d V MO) as (q & E & Z); [lia|]. exists q. split; auto. destruct (Z.ltb_spec d 0); [lia|exact Z].
  - intros d D. destruct (find_ok h o _ d V MO) as (q & E & Z); [lia|]. exists q. split; auto. destruct (Z.ltb_spec d 0); [exact Z|lia].
Qed.

Theorem C31_insert_in_order : forall sm o ml, means sm o ml -> unmarked ml -> forall h v, monotone h (map fst ml) -> forall j,
  (exists w i, insert j sm h o v = Some (Keyexist, o, i) /\ leftmost (fun x => h x = 0%Z) (map fst ml) w i) \/
  (exists o' i, insert j sm h o v = Some (Ok, o', i) /\ means sm o' (firstn i ml ++ (v, false) :: skipn i ml) /\
     Forall (fun x => (h x < 0)%Z) (firstn i (map fst ml)) /\ Forall (fun x => (0 < h x)%Z) (skipn i (map fst ml))).
Proof.
  intros sm o ml M UM h v MO j. destruct (C31_searches sm o ml M h MO) as ((q & E & Z) & _). unfold insert. rewrite E.
  destruct q as [[[] [w|]] i]; cbn in Z; try contradiction.
  - left. exists w, i. auto.
  - right. destruct Z as (L & F1 & F2). rewrite map_length in L. destruct (C31_changes_succeed sm o ml M UM j v i) as (I & _).
    destruct (I L) as (o' & E' & M'). rewrite E'. exists o', i. auto.
Qed.
End C31.
Print Assumptions C31_size_and_fetch.
Print Assumptions C31_changes_succeed.
Print Assumptions C31_marks_forbid_changes.
Print Assumptions C31_merge_and_clone.
Print Assumptions C31_iteration.
Print Assumptions C31_iteration_with_changes.
Print Assumptions C31_marks.
Print Assumptions C31_searches.
Print Assumptions C31_insert_in_order.

(** Ten insertions at the front and in the middle: an array, then a tree that was rebuilt on
    the way; two values marked and deleted; a search in the rest. *)
Definition ex_j (n : nat) : nat := 100 + n.
Fixpoint ex_ins (sm : bool) (o : option (omt nat)) (l : list (nat * nat)) : option (omt nat) :=
  match l, o with
  | [], _ => o
  | (v, i) :: l, Some o => match insert_at ex_j sm o v i with Some (Ok, o') => ex_ins sm (Some o') l | _ => None end
  | _, None => None
  end.
Lemma ex_means sm l : forall o o' ml, means sm o ml -> ex_ins sm (Some o) l = Some o' ->
  means sm o' (fold_left (fun ml p => firstn (snd p) ml ++ (fst p, false) :: skipn (snd p) ml) l ml).
Proof.
  induction l as [|[v i] l IH]; intros o o' ml M E; cbn [ex_ins fold_left] in *; [injection E as <-; exact M|].
  destruct (insert_at ex_j sm o v i) as [[[] o1]|] eqn:I; try discriminate. apply (IH o1); auto. eapply m_insert_at; eauto.
Qed.
Example C31_meets_hypotheses :
  exists o o' o2 : omt nat, means true o (plain [9; 1; 3; 2; 8; 7; 6; 5; 4; 0]) /\
    (let '(ml, _, _) := walk_mark (fun _ _ (x : unit) => (x, 0%Z)) 1 3 0 (plain [9; 1; 3; 2; 8; 7; 6; 5; 4; 0]) tt in means true o' ml /\ ~ unmarked ml) /\
    means true o2 (plain [9; 2; 8; 7; 6; 5; 4; 0]) /\ monotone (fun v => Z.of_nat v - 3)%Z (map fst (@plain nat [1; 2; 3; 4])) /\
    exists oa, means false oa (plain [9; 1; 3; 2; 8; 7; 6; 5; 4; 0]) /\ match oa with Tre _ _ _ => True | _ => False end.
Proof.
  pose (l := [(0, 0); (4, 0); (5, 0); (6, 0); (7, 0); (8, 0); (9, 0); (1, 1); (2, 2); (3, 2)]).
  assert (MC : forall sm, exists o, ex_ins sm (create ex_j sm) l = Some o /\ match o with Tre _ _ _ => True | _ => False end).
  { intros []; eexists; split; [vm_compute; reflexivity|exact Logic.I|vm_compute; reflexivity|exact Logic.I]. }
  assert (MM : forall sm o, ex_ins sm (create ex_j sm) l = Some o -> means sm o (plain [9; 1; 3; 2; 8; 7; 6; 5; 4; 0])).
  { intros sm o E. destruct (create ex_j sm) as [o0|] eqn:C; [|discriminate]. exact (ex_means sm l o0 o [] (m_create sm ex_j o0 C) E). }
  destruct (MC true) as (o & E & _). pose proof (MM _ _ E) as M. destruct (C31_marks o _ M) as (MK & _).
  specialize (MK unit (fun _ _ x => (x, 0%Z)) tt 1 3 ltac:(lia) ltac:(cbn; lia)).
  destruct (walk_mark (fun _ _ (x : unit) => (x, 0%Z)) 1 3 0 (plain [9; 1; 3; 2; 8; 7; 6; 5; 4; 0]) tt) as [[ml' x'] z] eqn:W.
  destruct MK as (o' & _ & M'). destruct (C31_marks o' ml' M') as (_ & D). destruct (D ex_j) as (o2 & _ & M2).
  vm_compute in W. injection W as <- _ _. exists o, o', o2. split; [exact M|]. split; [|split; [exact M2|split]].
  - split; [exact M'|]. intros F. apply Forall_inv_tail, Forall_inv in F. discriminate.
  - cbn. repeat constructor; cbn; lia.
  - destruct (MC false) as (oa & Ea & T). exists oa. split; [exact (MM _ _ Ea)|exact T].
Qed.
