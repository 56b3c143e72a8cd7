(** * C29: undo entries are processed exactly once in reverse order *)
From Verif Require Import Base Bytes LogModel RbModel RbSpec RbProofs RbInv RbSteps RbHist RbCodecModel RbCodecProofs.
Open Scope N_scope.

(** [hrun cmax w s A H]: the program reached [s] by any interleaving of begins, saves, child
    commits, root commits and aborts of any number of transactions, with any spill limit [w]
    and any size [cmax] of the cache of empty nodes; [H] is the history of saves with the
    transaction now responsible for each.  Committing or aborting [id] (apply_txn) processes
    exactly the entries [id] is responsible for, each once, from the newest to the oldest. *)
Theorem C29_processed_once_newest_first : forall cmax w s A H id, hrun cmax w s A H ->
  A id <> None -> no_child A id ->
  exists n, forall fuel, (n <= fuel)%nat -> exists s' A',
    rstep s (Finish id fuel) = Done (s', rev (entries_of id H)) /\
    hrun cmax w s' A' (filter (fun x => negb (Nat.eqb (fst x) id)) H).
Proof.
  intros cmax w s A H id R LV NC. destruct (hrun_inv _ _ _ _ _ R) as [RE HI]. destruct (reached_ok _ _ _ _ RE) as [OK _].
  destruct (finish_step s A id OK NC LV) as (a & n & AA & F). exists n. intros fuel LE.
  destruct (F fuel LE) as (s' & E & _). exists s', (aset A id None).
  assert (ST : rstep s (Finish id fuel) = Done (s', rev (entries_of id H))).
  { cbn [rstep]. rewrite E. now rewrite (i_log _ _ HI id a AA). }
  split; [exact ST|].
  apply (hr_step cmax w s A H (Finish id fuel) s' (aset A id None) _ (rev (a_log a)) R (conj NC LV) Logic.I ST).
  cbn [astep]. now rewrite AA.
Qed.
Print Assumptions C29_processed_once_newest_first.

(** Whatever the step budget of the model, processing a log does nothing else. *)
Theorem C29_nothing_else_is_processed : forall cmax w s A H id fuel s' out, hrun cmax w s A H ->
  A id <> None -> no_child A id -> rstep s (Finish id fuel) = Done (s', out) -> out = rev (entries_of id H).
Proof.
  intros cmax w s A H id fuel s' out R LV NC ST. destruct (hrun_inv _ _ _ _ _ R) as [RE HI].
  destruct (reached_ok _ _ _ _ RE) as [OK _]. destruct (step_ok s A (Finish id fuel) OK (conj NC LV)) as (a & n & AA & _ & [E|(s2 & E & _)]);
    rewrite E in ST; [discriminate|]. injection ST as _ <-. now rewrite (i_log _ _ HI id a AA).
Qed.
Print Assumptions C29_nothing_else_is_processed.

(** Processing a log touches the log of no other transaction: whatever else is committed or
    aborted in between, a live transaction keeps the entries of the specification.  (Here
    without the one-child rule: siblings may be interleaved; the child that commits last has
    its entries last.) *)
Theorem C29_refines_the_lists : forall cmax w s A o, reached cmax w s A -> allowed A s o ->
  rstep s o = Fuel \/
  exists s' A' out, rstep s o = Done (s', out) /\ astep A o = Some (A', out) /\ reached cmax w s' A'.
Proof.
  intros cmax w s A o R AL. destruct (reached_ok _ _ _ _ R) as [OK _]. pose proof (step_ok s A o OK AL) as SO.
  destruct o as [id x p|id e b|id f1 f2|id fuel].
  1-3: right; destruct SO as (s' & A' & E1 & E2 & _); exists s', A', []; split; [exact E1|]; split; [exact E2|];
    eapply rr_step; eassumption.
  destruct SO as (a & n & AA & _ & [E|(s' & E & _)]); [left; exact E|]. right.
  exists s', (aset A id None), (rev (a_log a)). split; [exact E|].
  assert (AS : astep A (Finish id fuel) = Some (aset A id None, rev (a_log a))) by (cbn [astep]; now rewrite AA).
  split; [exact AS|]. eapply rr_step; eassumption.
Qed.
Print Assumptions C29_refines_the_lists.

(** No assertion of the rollback code fails (node contents, sequence numbers, found_head,
    unused nodes from the cache, toku_txn_complete_txn). *)
Theorem C29_no_assertion_fails : forall cmax w s A o, reached cmax w s A -> allowed A s o -> rstep s o <> Fail.
Proof.
  intros cmax w s A o R AL E. destruct (C29_refines_the_lists cmax w s A o R AL) as [F|(s' & A' & out & F & _)]; rewrite F in E; discriminate.
Qed.
Print Assumptions C29_no_assertion_fails.

(** No node leaks: a node of the rollback dictionary is in the cache of empty nodes or belongs
    to the log of a live transaction; when no transaction is live only the at most [cmax]
    cached nodes remain. *)
Theorem C29_no_node_leaks : forall cmax w s A, reached cmax w s A -> (forall id, A id = None) ->
  (forall b, heap s b <> None <-> In b (cache s)) /\ NoDup (cache s) /\ N.of_nat (length (cache s)) <= cmax.
Proof.
  intros cmax w s A R NL. destruct (reached_ok _ _ _ _ R) as [(fpf & own & I) CM]. split; [|split].
  - intros b. rewrite (v_dom _ _ _ _ _ _ _ _ I). rewrite (v_cache _ _ _ _ _ _ _ _ I).
    destruct (own b) as [|u| |] eqn:O; split; try congruence; intros _; exfalso.
    + pose proof (v_tx _ _ _ _ _ _ _ _ I u) as VT. rewrite NL in VT. apply (v_own _ _ _ _ _ _ _ _ I) in O.
      destruct (txs s u); cbn in VT; [contradiction|]. rewrite VT in O. destruct O.
    + apply (v_ext _ _ _ _ _ _ _ _ I) in O. destruct O.
  - apply (v_ndc _ _ _ _ _ _ _ _ I).
  - rewrite <- CM. apply (v_len _ _ _ _ _ _ _ _ I).
Qed.
Print Assumptions C29_no_node_leaks.

(** * C43: a rollback log node survives being written and read back *)

(** The node the current version writes is the node it reads, for any entries whose fields
    hold values of their C types, as long as the node's size is an unsigned int. *)
Theorem C43_rollback_node_round_trip : forall rh b n, node_fits n -> head_fits rh -> b < 2 ^ 64 ->
  exists bs, rb_serialize rh b n = Some bs /\ rb_deserialize b bs = Some (rh, n).
Proof.
  intros rh b n NF HF B. exists (node_bytes rh b n). split; [now apply serialize_ok|].
  pose proof HF as (V & VO & BI & AR). rewrite deserialize_ok; auto; rewrite V; [reflexivity|unfold FT_LAYOUT_VERSION; lia].
Qed.
Print Assumptions C43_rollback_node_round_trip.

(** In every reachable state the byte count that decides the size of the buffer is that of
    the node's entries, so that a node of the dictionary can be written. *)
Theorem C43_every_node_can_be_written : forall cmax w s A b n rh, reached cmax w s A -> heap s b = Some n ->
  Forall ent_fits (n_ents n) -> fst (n_xid n) < 2 ^ 64 -> snd (n_xid n) < 2 ^ 64 -> n_seq n < 2 ^ 64 -> n_prev n < 2 ^ 64 ->
  n_bytes n + 76 < 2 ^ 32 -> head_fits rh ->
  exists bs, rb_serialize rh b n = Some bs /\ rb_deserialize b bs = Some (rh, n).
Proof.
  intros cmax w s A b n rh R HB EF X Y SQ PV TOT HF. destruct (reached_ok _ _ _ _ R) as [(fpf & own & I) _].
  apply C43_rollback_node_round_trip; [|exact HF|].
  - unfold node_fits. repeat (split; [assumption|]). split; [|exact TOT]. eapply (v_bytes _ _ _ _ _ _ _ _ I); eassumption.
  - assert (b < 2 ^ 63); [|lia]. apply (v_small _ _ _ _ _ _ _ _ I). congruence.
Qed.
Print Assumptions C43_every_node_can_be_written.

(** The reader's list of versions has a gap: nodes of layout version 28 abort it (both
    FT_LAYOUT_VERSION_25..27 and the current 29 are read). *)
Theorem C43_older_versions_are_read_refuted : forall rh b n, node_fits n -> rh_version rh = 28 -> rh_original rh < 2 ^ 32 ->
  rh_build rh < 2 ^ 32 -> rh_arena rh < 2 ^ 64 -> b < 2 ^ 64 ->
  rb_deserialize b (node_bytes rh b n) = None /\
  forall v, v = 25 \/ v = 26 \/ v = 27 \/ v = 29 ->
    let rh' := mkRH v (rh_original rh) (rh_build rh) (rh_arena rh) in rb_deserialize b (node_bytes rh' b n) = Some (rh', n).
Proof.
  intros rh b n NF V VO BI AR B. split.
  - rewrite deserialize_ok by (auto; lia). now rewrite V.
  - intros v HV rh'. rewrite deserialize_ok; auto; cbn; [|lia]. destruct (N.eqb_spec v 28); [lia|reflexivity].
Qed.
Print Assumptions C43_older_versions_are_read_refuted.

Example C43_case : node_fits (mkRN (7, 9) 2 5 [RIncl (7, 9) 2 5 6; ROp 105 [V_num 3; V_bytes [1; 2]]; ROp 104 [V_nums [4; 5]]; ROp 66 [V_num 1; V_bool true]] 87)
  /\ head_fits (mkRH 29 29 0 100).
Proof.
  split; [|repeat split; reflexivity].
  unfold node_fits. cbn [n_xid n_seq n_prev n_ents n_bytes fst snd]. repeat (split; [reflexivity|]). split; [|split; [vm_compute; reflexivity|reflexivity]].
  repeat constructor.
  all: eexists; split; [reflexivity|]; split; [repeat constructor; cbn; lia|try discriminate; exact Logic.I].
Qed.

(** ** A concrete case of C29: spill limit 16 bytes, so that every second entry spills a node; the
    child's log reaches the parent partly as a rollinclude entry and partly as entries. *)
Definition ex_e (k : N) : rentry := ROp 105 [V_num 3; V_bytes [k]].
Definition ex_ops : list rop :=
  [ Begin 0 (1, 0) None; Save 0 (ex_e 1) 5; Begin 1 (1, 2) (Some 0%nat); Save 1 (ex_e 2) 6; Save 1 (ex_e 3) 7;
    Save 1 (ex_e 4) 8; Commit 1 9 10; Save 0 (ex_e 5) 11 ].
Ltac ex_nc :=
  let u := fresh "u" in let HA := fresh "HA" in
  intros u ? HA; unfold aset in HA; cbn in HA;
  repeat (destruct u as [|u]; cbn in HA; [try discriminate HA; injection HA as <-; discriminate|]); discriminate HA.
Ltac ex_allowed :=
  match goal with
  | |- allowed _ _ (Begin _ _ None) => split; [reflexivity|exact Logic.I]
  | |- allowed _ _ (Begin _ _ (Some _)) => split; [reflexivity|split; discriminate]
  | |- allowed _ _ (Save _ _ _) => split; [discriminate|]; split; [discriminate|]; split; [discriminate|]; split; vm_compute; reflexivity
  | |- allowed _ _ (Commit _ _ _) =>
      split; [ex_nc|]; split; [eexists; split; [reflexivity|discriminate]|];
      split; [split; [discriminate|]; split; vm_compute; reflexivity|];
      split; [split; [discriminate|]; split; vm_compute; reflexivity|discriminate]
  end.
Definition nextS (s : rsys) (o : rop) : rsys := match rstep s o with Done (s', _) => s' | _ => s end.
Definition nextA (A : astate) (o : rop) : astate := match astep A o with Some (A', _) => A' | None => A end.
Lemma hr_next cmax w s A H o : hrun cmax w s A H -> allowed A s o -> one_child A o ->
  (match rstep s o, astep A o with Done _, Some _ => true | _, _ => false end) = true ->
  hrun cmax w (nextS s o) (nextA A o) (hstep A H o).
Proof.
  intros R AL OC E. unfold nextS, nextA. destruct (rstep s o) as [[s' out]| |] eqn:ST; try discriminate.
  destruct (astep A o) as [[A' out']|] eqn:AS; [|discriminate]. eapply hr_step; eassumption.
Qed.
Definition ex_s := fold_left nextS ex_ops (rinit 4 16).
Definition ex_A := fold_left nextA ex_ops (fun _ => None).
Example C29_case : exists s A H, hrun 4 16 s A H /\ A 0%nat <> None /\ no_child A 0%nat /\
  (exists t, txs s 0%nat = Some t /\ has_spilled t = true) /\
  entries_of 0%nat H = map ex_e [1; 2; 3; 4; 5] /\
  (match rstep s (Finish 0 9) with Done (s', out) => (out, length (cache s')) | _ => ([], 0%nat) end) =
    (map ex_e [5; 4; 3; 2; 1], 2%nat).
Proof.
  eexists ex_s, ex_A, _. split.
  { unfold ex_s, ex_A. cbn [fold_left ex_ops].
    apply hr_next; [apply hr_next; [apply hr_next; [apply hr_next; [apply hr_next; [apply hr_next; [apply hr_next; [apply hr_next;
      [apply hr_nil| | | ]| | |]| | |]| | |]| | |]| | |]| | |]| | |].
    all: try (vm_compute; reflexivity). all: try ex_allowed.
    all: cbn [one_child]; try exact Logic.I; ex_nc. }
  split; [discriminate|]. split; [ex_nc|].
  split; [eexists; split; [vm_compute; reflexivity|vm_compute; reflexivity]|].
  split; [vm_compute; reflexivity|].
  vm_compute. reflexivity.
Qed.
