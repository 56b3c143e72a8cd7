(** C53: the bulk loader. *)
From Verif Require Import Base Bytes LtSpec KOrd KeyCmp LdrModel LdrSpec LdrSort LdrHeap LdrMerge.
Open Scope nat_scope.

(** The merge sort of one rowset: sorts, or there is a duplicate; nothing else. *)
Theorem C53_sort : forall c T l, cmp_ok c -> 3 <= T ->
  (forall r, sort_rows c T l = LOk r -> in_order c r /\ Permutation l r) /\
  (unique_keys c l <-> exists r, sort_rows c T l = LOk r) /\
  (~ unique_keys c l <-> sort_rows c T l = LDup).
Proof.
  intros c T l ok T3. assert (R := sort_rows_ok c ok T T3 l). destruct (sort_rows c T l) as [s| | |]; try contradiction.
  - destruct R as [R1 R2]. assert (U : unique_keys c l) by (eapply uniq_perm; [exact ok|symmetry; exact R2|apply order_uniq; auto]).
    split; [intros r E; inversion E; subst; auto|]. split; [split; [eauto|auto]|split; [tauto|discriminate]].
  - split; [discriminate|]. split; [split; [tauto|intros [r E]; discriminate]|tauto].
Qed.

(** What reaches the writer of the new dictionary is exactly what the callback made,
    in the order of the keys, each key once. *)
Theorem C53_load : forall c T wont_fit gen final earlier puts out, cmp_ok c -> 3 <= T -> 1 <= final -> 2 <= earlier ->
  ldr_load c T wont_fit gen final earlier puts = LOk out ->
  exists all, all_rows gen puts = Some all /\ in_order c out /\ Permutation all out.
Proof.
  intros c T wf gen fin ear puts out ok T3 F E H. assert (R := load_ok c ok fin ear F E T T3 wf gen puts). rewrite H in R. exact R.
Qed.

(** A load of rows with different keys succeeds, whatever the sizes of the rowsets and
    however many runs there are; one with a key twice never succeeds, and neither does
    one whose callback failed. *)
Theorem C53_complete : forall c T wont_fit gen final earlier puts, cmp_ok c -> 3 <= T -> 1 <= final -> 2 <= earlier ->
  ((exists out, ldr_load c T wont_fit gen final earlier puts = LOk out) <-> (exists all, all_rows gen puts = Some all /\ unique_keys c all)) /\
  (ldr_load c T wont_fit gen final earlier puts = LErr -> all_rows gen puts = None).
Proof.
  intros c T wf gen fin ear puts ok T3 F E. assert (R := load_ok c ok fin ear F E T T3 wf gen puts). split; [split|].
  - intros [out H]. rewrite H in R. destruct R as [al [R1 [R2 R3]]]. exists al. split; [exact R1|]. eapply uniq_perm; [exact ok|symmetry; exact R3|apply order_uniq; auto].
  - intros [al [A U]]. destruct (ldr_load c T wf gen fin ear puts) as [out| | |]; [eauto|..].
    + destruct (R al A U).
    + congruence.
    + destruct (R al A U).
  - intros H. rewrite H in R. exact R.
Qed.

(** The memory given to the loader, the limits it derives from it and the order of the
    puts do not show in the result. *)
Theorem C53_same : forall c T1 T2 wf1 wf2 gen f1 f2 e1 e2 puts1 puts2 out1 out2, cmp_ok c -> 3 <= T1 -> 3 <= T2 -> 1 <= f1 -> 1 <= f2 -> 2 <= e1 -> 2 <= e2 ->
  Permutation puts1 puts2 ->
  ldr_load c T1 wf1 gen f1 e1 puts1 = LOk out1 -> ldr_load c T2 wf2 gen f2 e2 puts2 = LOk out2 -> out1 = out2.
Proof.
  intros c T1 T2 wf1 wf2 gen f1 f2 e1 e2 p1 p2 o1 o2 ok A1 A2 B1 B2 D1 D2 P H1 H2.
  destruct (C53_load _ _ _ _ _ _ _ _ ok A1 B1 D1 H1) as [a1 [X1 [Y1 Z1]]]. destruct (C53_load _ _ _ _ _ _ _ _ ok A2 B2 D2 H2) as [a2 [X2 [Y2 Z2]]].
  apply (sorted_eq c ok); auto. eapply Permutation_trans; [symmetry; exact Z1|]. eapply Permutation_trans; [|exact Z2]. clear - P X1 X2.
  revert a1 a2 X1 X2. induction P as [|p l l' P IH|x y l|l l' l'' P1 IH1 P2 IH2]; intros a1 a2 X1 X2; cbn in *.
  - inversion X1; inversion X2; reflexivity.
  - destruct (gen p) as [g|]; [|discriminate]. destruct (all_rows gen l) as [b1|]; [|discriminate]. destruct (all_rows gen l') as [b2|]; [|discriminate]. inversion X1; inversion X2; subst. apply Permutation_app_head. auto.
  - destruct (gen x) as [gx|], (gen y) as [gy|]; try discriminate; destruct (all_rows gen l) as [b|]; try discriminate. inversion X1; inversion X2; subst. rewrite !app_assoc. apply Permutation_app_tail, Permutation_app_comm.
  - destruct (all_rows gen l') as [b|] eqn:B; [eapply Permutation_trans; [apply (IH1 a1 b)|apply (IH2 b a2)]; auto|]. exfalso. clear - B P1 X1.
    revert a1 X1 B. induction P1 as [|p l l' P IH|x y l|l l' l'' P1 IH1 P2 IH2]; intros a1 X1 B; cbn in *; try discriminate.
    + destruct (gen p); [|discriminate]. destruct (all_rows gen l) as [b1|]; [|discriminate]. destruct (all_rows gen l'); [discriminate|]. eapply IH; reflexivity.
    + destruct (gen x), (gen y), (all_rows gen l); discriminate.
    + destruct (all_rows gen l') as [b|] eqn:B'; [eapply IH2; [reflexivity|exact B]|eapply IH1; [exact X1|reflexivity]].
Qed.

(** Wanted: a load with a key twice answers DB_KEYEXIST.  Proved for merges of at most
    two runs.  Missing: wider merges, where it is false (below). *)
Theorem C53_dup_answer_partial : forall c T wont_fit gen final puts all, cmp_ok c -> 3 <= T -> 1 <= final <= 2 ->
  all_rows gen puts = Some all -> ~ unique_keys c all -> ldr_load c T wont_fit gen final 2 puts = LDup.
Proof.
  intros c T wf gen fin puts al ok T3 F A U. assert (R := load_ok c ok fin 2 ltac:(lia) ltac:(lia) T T3 wf gen puts).
  assert (B := load_small c ok fin 2 ltac:(lia) ltac:(lia) T T3 wf gen puts eq_refl ltac:(lia)).
  destruct (ldr_load c T wf gen fin 2 puts) as [out| | |]; [|reflexivity|congruence|congruence].
  destruct R as [b [R1 [R2 R3]]]. rewrite A in R1. inversion R1; subst. destruct U. eapply uniq_perm; [exact ok|symmetry; exact R3|apply order_uniq; auto].
Qed.

(** The same row again and again: here the rows 5, 5 and 1, each in a rowset (and so a
    run) of its own, as after 5, 5, 1 was put. *)
Definition one_row (rows : list (bytes * bytes)) (_ : bytes * bytes) : bool := match rows with [] => false | _ => true end.
Definition as_is (p : bytes * bytes) : option (list (bytes * bytes)) := Some [p].
Definition kv (n : N) : bytes * bytes := ([n], [n]).

(** A duplicate in two branches of the heap is not seen when it is put in but when the
    root is taken, and there the process stops instead of answering DB_KEYEXIST. *)
Theorem C53_dup_answer_refuted :
  ~ (forall c T wont_fit gen final earlier puts all, cmp_ok c -> 3 <= T -> 1 <= final -> 2 <= earlier ->
     all_rows gen puts = Some all -> ~ unique_keys c all -> ldr_load c T wont_fit gen final earlier puts = LDup).
Proof.
  intros H. assert (X : ldr_load key_cmp 10 one_row as_is 4 4 (map kv [5; 5; 1]%N) = LBug) by (vm_compute; reflexivity).
  rewrite (H key_cmp 10 one_row as_is 4 4 (map kv [5; 5; 1]%N) (map kv [5; 5; 1]%N) key_cmp_ok) in X; try lia; [discriminate|reflexivity|].
  intros U. inversion U as [|? ? F _]; subst. inversion F as [|? ? O _]; subst. apply O. reflexivity.
Qed.

(** Hypotheses met: seven rows in runs of their own, merged in passes of two, and a
    duplicate reported. *)
Example load_ex : ldr_load key_cmp 3 one_row as_is 2 2 (map kv [3; 7; 1; 6; 2; 5; 4]%N) = LOk (map kv [1; 2; 3; 4; 5; 6; 7]%N).
Proof. vm_compute. reflexivity. Qed.
Example load_wide : ldr_load key_cmp 10 (fun r _ => 2 <=? length r) as_is 4 4 (map kv [3; 7; 1; 6; 2; 5; 4; 9; 8]%N) = LOk (map kv [1; 2; 3; 4; 5; 6; 7; 8; 9]%N).
Proof. vm_compute. reflexivity. Qed.
Example load_dup : ldr_load key_cmp 3 one_row as_is 2 2 (map kv [5; 5; 1]%N) = LDup.
Proof. vm_compute. reflexivity. Qed.
Example sort_ex : sort_rows key_cmp 3 (map kv [3; 7; 1; 6; 2]%N) = LOk (map kv [1; 2; 3; 6; 7]%N) /\ sort_rows key_cmp 3 (map kv [3; 7; 3]%N) = LDup.
Proof. vm_compute. split; reflexivity. Qed.

Print Assumptions C53_sort.
Print Assumptions C53_load.
Print Assumptions C53_complete.
Print Assumptions C53_same.
Print Assumptions C53_dup_answer_partial.
Print Assumptions C53_dup_answer_refuted.
