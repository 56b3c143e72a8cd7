(** C54: the tree the bulk loader writes. *)
From Verif Require Import Base Bytes LtSpec KOrd KeyCmp LdrModel LdrSpec LdrSort LdrHeap LdrMerge LdrtModel LdrtSpec LdrtProofs PropsLdr.
Open Scope nat_scope.

(** Whatever rows come and wherever leaves are cut: no invariant fails, one tree comes
    out, it holds the rows in their order, all leaves are at one depth, and each node
    has 2 to 15 children, 8 to 15 below the root, none of them empty. *)
Theorem C54_tree : forall full rows, exists t h, write_ft full rows = LOk t /\ rows_of t = rows /\ shaped 2 h t.
Proof. intros full rows. destruct (write_ok full rows) as [t [h [E [R G]]]]. exists t, h. split; [exact E|]. split; [exact R|apply good_shaped; exact G]. Qed.

(** The depth is at most logarithmic in the number of leaves. *)
Theorem C54_depth : forall h t, shaped 2 (S h) t -> 2 * 8 ^ h <= leaves_of t.
Proof. intros h t G. destruct (leaves_many (S h) 2 t G) as [_ H]. exact H. Qed.

(** A reader that goes down by the pivots finds each row, and nothing else. *)
Theorem C54_lookup : forall c full rows t, cmp_ok c -> in_order c rows -> write_ft full rows = LOk t ->
  (forall x, In x rows -> tree_find c (fst x) t = Some (snd x)) /\
  (forall k v, tree_find c k t = Some v -> exists x, In x rows /\ keq c k (fst x) /\ snd x = v).
Proof.
  intros c full rows t ok O W. destruct (write_ok full rows) as [t' [h [E [R G]]]]. rewrite W in E. inversion E; subst t'. rewrite <- R in O.
  assert (F : forall k, tree_find c k t = row_find c k rows) by (intros k; rewrite (tree_find_ok c ok k h 2 t G O), R; reflexivity). rewrite R in O. split.
  - intros x I. rewrite F. unfold row_find. clear - ok O I. induction rows as [|y rows IH]; [destruct I|]. inversion O as [|? ? O1 O2]; subst. cbn [find].
    destruct (keqb c (fst x) (fst y)) eqn:K.
    + apply keqb_true in K. destruct I as [->|I]; [reflexivity|]. exfalso. rewrite Forall_forall in O1. assert (B := O1 _ I). unfold before in B. kord ok.
    + destruct I as [->|I]; [|apply IH; auto]. exfalso. assert (Y := keq_refl ok (fst x)). apply keqb_true in Y. congruence.
  - intros k v H. rewrite F in H. unfold row_find in H. destruct (find (fun x => keqb c k (fst x)) rows) as [x|] eqn:E2; [|discriminate]. inversion H; subst.
    apply find_some in E2. destruct E2 as [I K]. apply keqb_true in K. exists x. auto.
Qed.

(** The whole loader: after a load every row the callback made is found in the new
    dictionary, and only those. *)
Theorem C54_loaded : forall c T wont_fit gen final earlier full puts out t, cmp_ok c -> 3 <= T -> 1 <= final -> 2 <= earlier ->
  ldr_load c T wont_fit gen final earlier puts = LOk out -> write_ft full out = LOk t ->
  exists all, all_rows gen puts = Some all /\
    (forall x, In x all -> tree_find c (fst x) t = Some (snd x)) /\
    (forall k v, tree_find c k t = Some v -> exists x, In x all /\ keq c k (fst x) /\ snd x = v).
Proof.
  intros c T wf gen fin ear full puts out t ok T3 F E H W. destruct (C53_load _ _ _ _ _ _ _ _ ok T3 F E H) as [al [A [O P]]]. exists al. split; [exact A|].
  destruct (C54_lookup c full out t ok O W) as [L1 L2]. split.
  - intros x I. apply L1. eapply Permutation_in; [exact P|exact I].
  - intros k v K. destruct (L2 k v K) as [x [I X]]. exists x. split; [eapply Permutation_in; [symmetry; exact P|exact I]|exact X].
Qed.

(** Forty rows, a leaf each: three levels. *)
Definition forty : list (bytes * bytes) := map (fun n => kv (N.of_nat n)) (seq 0 40).
Example tree_ex : match write_ft (fun _ _ _ => true) forty with
  | LOk (LNode [p; q] [LNode _ a; LNode _ b; LNode _ d]) => p = [14%N] /\ q = [26%N] /\ length a = 15 /\ length b = 12 /\ length d = 13
  | _ => False end.
Proof. vm_compute. repeat split. Qed.
Example tree_none : write_ft (fun _ _ _ => true) [] = LOk (LLeaf []).
Proof. reflexivity. Qed.
Example forty_order : in_order key_cmp forty.
Proof. unfold in_order, forty, before, klt. repeat (constructor; [repeat (constructor; [reflexivity|]); constructor|]). constructor. Qed.

Print Assumptions C54_tree.
Print Assumptions C54_depth.
Print Assumptions C54_lookup.
Print Assumptions C54_loaded.
