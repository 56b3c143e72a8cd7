(** C50: building an index on a dictionary in use. *)
From Verif Require Import Base Bytes KOrd LtSpec UleModel UleSpec MulSpec HotModel HotSpec HotProofs HotRow HotTop HotAll.
From Coq Require Import Lia.
Open Scope N_scope.

(** The row callbacks of [g] work on every value stored in the row. *)
Definition callbacks_work (c : bytes -> bytes -> comparison) (u : ule) (g : hotdb) : Prop :=
  forall v, In (XIns v) (map ux_xr (cx u ++ px u)) -> callbacks_ok c g v.

(** Which readers are meant: those that read uncommitted data; those of a
    snapshot in which nothing of the row is seen without everything older; those
    that want the newest committed value and know that the row's root transaction
    has committed, if it has. *)
Definition reads_well (rt : read_type) (rd : reader) (u : ule) (st : list tstate) : Prop :=
  match rt with
  | C_READ_ANY => True
  | C_READ_SNAPSHOT => in_order (fun x => txn_reads_txnid x rd) (row_ids u)
  | C_READ_COMMITTED =>
      match st, px u with
      | (TCommitting | TRetired) :: _, r :: _ => txn_reads_txnid (ux_xid r) rd = true
      | _, _ => True
      end
  end.

(** The messages [ms] give every row [hk] of the hot dictionary, for every such
    reader, the value that belongs to what the reader sees in the source row. *)
Definition indexed (c : bytes -> bytes -> comparison) (u : ule) (st : list tstate) (g : hotdb) (ms : list hmsg) : Prop :=
  forall hk, exists row, hot_row c hk ms = Some row /\
    forall rt rd, reads_well rt rd u st ->
      row_read rt rd row = option_map (hot_of c g hk) (row_read rt rd (Some (settled u st))) /\
      (* and when the transactions deeper than [k] abort, in both *)
      forall k, (k < open_levels st)%nat ->
        row_read rt rd (option_map (upto k) row) = option_map (hot_of c g hk) (row_read rt rd (Some (upto k u))).

Section P.
Context (c : bytes -> bytes -> comparison) (ok : cmp_ok c) (u : ule) (st : list tstate) (S : source_ok u st) (T : states_ok st).

Lemma src_cx : cx u <> [].
Proof. destruct (wf_bottom _ (so_wf _ _ S)) as (l & w & ->). destruct l; discriminate. Qed.
Lemma none_upto k rt rd : rt <> C_READ_COMMITTED -> row_read rt rd None = Some (iter (match rt with C_READ_SNAPSHOT => fun x => txn_reads_txnid x rd | _ => fun _ => true end) (upto k ule_init_empty)).
Proof. intros H. unfold upto. cbn [ule_init_empty px cx]. rewrite firstn_nil. destruct rt; [reflexivity..|congruence]. Qed.

Lemma one_db g : callbacks_work c u g ->
  exists a b, committed_loop g None (rev (cx u)) = HOk a /\ provisional g (newest u) (combine (px u) st) = HOk b /\ indexed c u st g (a ++ b).
Proof.
  intros W.
  destruct (committed_all c ok g u st S W []) as (a & o0 & Ea & _ & R0).
  destruct (provisional_all c ok g u st [] o0 S T W R0) as (b & o0' & Eb & _ & _).
  exists a, b. split; [exact Ea|]. split; [exact Eb|]. intros hk.
  destruct (committed_all c ok g u st S W hk) as (a' & o & Ea' & A & R). rewrite Ea in Ea'. injection Ea' as <-.
  destruct (provisional_all c ok g u st hk o S T W R) as (b' & o' & Eb' & B & (Q1 & Q2 & Q3)). rewrite Eb in Eb'. injection Eb' as <-.
  exists o'. split.
  - unfold hot_row. change (map snd (filter (fun m => keqb c hk (fst m)) (a ++ b))) with (proj c hk (a ++ b)). rewrite proj_app, (apply_all_app _ _ _ _ A). exact B.
  - intros rt rd V.
    assert (rt = C_READ_COMMITTED \/ rt <> C_READ_COMMITTED) as [-> | Hrt] by (destruct rt; [right; discriminate|right; discriminate|now left]).
    { destruct Q3 as (_ & Q4 & Q5). split.
      - rewrite (read_iterc rd o' Q1), (read_iterc rd (Some (settled u st))) by exact src_cx. cbn [option_map ur]. f_equal. apply Q4.
        intros s st' r p -> E Ov. unfold reads_well in V. rewrite E in V. destruct s; try discriminate Ov; exact V.
      - intros k Hk. rewrite (read_iterc rd (Some (upto k u))) by exact src_cx. cbn [ur option_map]. rewrite <- (Q5 _ k Hk).
        destruct o' as [w|]; cbn [option_map].
        + rewrite (read_iterc rd (Some (upto k w))) by exact Q1. reflexivity.
        + unfold upto. cbn [ur ule_init_empty px]. rewrite firstn_nil. reflexivity. }
    assert (O : in_order (match rt with C_READ_SNAPSHOT => fun x => txn_reads_txnid x rd | _ => fun _ => true end) (row_ids u)).
    { destruct rt; [apply in_order_true|exact V|congruence]. }
    destruct Q3 as (Q3 & _). split.
    + rewrite (read_iter rt rd o' Hrt Q1). rewrite (read_iter rt rd (Some (settled u st)) Hrt) by exact src_cx. cbn [option_map ur]. f_equal. now apply Q2.
    + intros k Hk. rewrite (read_iter rt rd (Some (upto k u)) Hrt) by exact src_cx. cbn [ur]. cbn [option_map].
      rewrite <- (Q3 _ k Hk O). destruct o' as [w|]; cbn [option_map].
      * rewrite (read_iter rt rd (Some (upto k w)) Hrt) by exact Q1. reflexivity.
      * rewrite (none_upto k rt rd Hrt). reflexivity.
Qed.
End P.

Lemma release_none st p : existsb is_pinned st = false -> release st p = Some p.
Proof. unfold release. now intros ->. Qed.

(** C50.  Indexing a source row: no assert fails, no transaction stays pinned, and
    every hot dictionary gets rows that agree with the source row for every
    reader, now and after any of the open nested transactions abort. *)
Theorem C50_row : forall c u st dbs,
  cmp_ok c -> source_ok u st -> states_ok st -> Forall (callbacks_work c u) dbs ->
  (length dbs = 1%nat \/ existsb is_pinned st = false) ->
  exists mss, index_row dbs u st = (HOk mss, 0%nat) /\ Forall2 (indexed c u st) dbs mss.
Proof.
  intros c u st dbs ok S T W [L | NP].
  - destruct dbs as [|g [|g' dbs]]; try discriminate L. inversion W as [|? ? W1 _]; subst.
    destruct (one_db c ok u st S T g W1) as (a & b & Ea & Eb & I).
    exists [a ++ b]. split; [|constructor; [exact I|constructor]].
    unfold index_row. cbn [index_dbs]. rewrite Ea, Eb.
    destruct (px u) as [|r p] eqn:Ep.
    + pose proof (so_len _ _ S) as Ln. rewrite Ep in Ln. destruct st; [|discriminate Ln]. reflexivity.
    + unfold release. destruct (existsb is_pinned st); reflexivity.
  - unfold index_row. rewrite NP. clear - ok S T W NP. induction W as [|g dbs W1 W2 IH]; [exists []; split; [reflexivity|constructor]|].
    destruct (one_db c ok u st S T g W1) as (a & b & Ea & Eb & I). destruct IH as (mss & E & F).
    exists ((a ++ b) :: mss). split; [|constructor; assumption].
    cbn [index_dbs]. rewrite Ea, Eb. rewrite (release_none st _ NP). destruct (px u); rewrite E; reflexivity.
Qed.

(** Finding: the transactions of the row are pinned once but released after each
    hot dictionary, so with two of them and an open transaction on the row the
    assert num_pin > 0 (ft/txn/txn.cc:699) fails. *)
Theorem C50_two_dictionaries_refuted : forall c u st g1 g2 dbs,
  cmp_ok c -> source_ok u st -> states_ok st -> callbacks_work c u g1 -> callbacks_work c u g2 ->
  existsb is_pinned st = true -> fst (index_row (g1 :: g2 :: dbs) u st) = HBug.
Proof.
  intros c u st g1 g2 dbs ok S T W1 W2 P.
  destruct (one_db c ok u st S T g1 W1) as (a & b & Ea & Eb & _).
  destruct (one_db c ok u st S T g2 W2) as (a' & b' & Ea' & Eb' & _).
  unfold index_row. cbn [index_dbs]. rewrite Ea, Eb, Ea', Eb', P.
  destruct (px u) as [|r p] eqn:Ep.
  - pose proof (so_len _ _ S) as Ln. rewrite Ep in Ln. destruct st; [discriminate P|discriminate Ln].
  - unfold release. rewrite P. reflexivity.
Qed.

(** Finding: when a callback fails on a committed value the error is returned with
    the open transactions of the row still pinned; they can then neither commit
    nor abort (ft/txn/txn.cc:374, 448 wait for num_pin = 0). *)
Theorem C50_error_pins_refuted : exists u st g, source_ok u st /\ states_ok st /\ index_row [g] u st = (HErr, 1%nat).
Proof.
  exists (mkUle [mkUxr 0 (XIns [1])] [mkUxr 5 (XIns [2])] 10), [TLive], (mkHot (fun _ => None) (fun _ => None)).
  split; [|split; [exact I|reflexivity]]. constructor; cbn; auto.
  - constructor; cbn; auto.
    + repeat constructor; cbn; try lia; discriminate.
    + repeat constructor; cbn; lia.
    + exists [], (XIns [1]). reflexivity.
    + discriminate.
    + unfold MAX_TRANSACTION_RECORDS; lia.
  - repeat constructor. discriminate.
  - repeat constructor. intros [].
Qed.

(** ** A case *)
(** The hot key is the first byte of the value, the hot value the rest; a value that
    starts with 0 has two rows. *)
Definition ex_rows (v : bytes) : list (bytes * bytes) :=
  match v with [] => [] | 0 :: t => [([0], t); ([1], [])] | b :: t => [([b], t)] end.
Definition ex_db : hotdb := mkHot (fun v => Some (ex_rows v)) (fun v => Some (map fst (ex_rows v))).
Fixpoint cmpN (a b : bytes) : comparison :=
  match a, b with
  | [], [] => Eq | [], _ => Lt | _, [] => Gt
  | x :: a, y :: b => match N.compare x y with Eq => cmpN a b | r => r end
  end.
(** Committed: [7;1], then deleted by 3, then [0;2] by 4; transaction 6 put [7;3],
    its child 7 only has a child 8, which is over and put [0;9]. *)
Definition ex_u : ule :=
  mkUle [mkUxr 4 (XIns [0; 2]); mkUxr 3 XDel; mkUxr 0 (XIns [7; 1])]
        [mkUxr 6 (XIns [7; 3]); mkUxr 7 XPlace; mkUxr 8 (XIns [0; 9])] 508.
Definition ex_st : list tstate := [TLive; TLive; TRetired].
(** Transaction 6 as a reader. *)
Definition ex_own : reader := mkReader 6 [6] 6.

Lemma cmpN_ok : cmp_ok cmpN.
Proof.
  constructor.
  - induction a as [|x a IH]; cbn; auto. now rewrite N.compare_refl.
  - induction a as [|x a IH]; intros [|y b]; cbn; auto. rewrite (N.compare_antisym x y). destruct (x ?= y); cbn; auto.
  - induction a as [|x a IH]; intros [|y b] [|z d]; cbn; try congruence.
    destruct (N.compare_spec x y) as [E1|E1|E1], (N.compare_spec y z) as [E2|E2|E2], (N.compare_spec x z) as [E3|E3|E3]; subst; try congruence; try lia; eauto.
Qed.
Example ex_source : source_ok ex_u ex_st.
Proof.
  constructor; cbn; auto.
  - constructor; cbn; auto.
    + repeat constructor; cbn; try lia; discriminate.
    + repeat constructor; cbn; lia.
    + exists [mkUxr 4 (XIns [0; 2]); mkUxr 3 XDel], (XIns [7; 1]). reflexivity.
    + discriminate.
    + unfold MAX_TRANSACTION_RECORDS; lia.
  - repeat constructor; discriminate.
  - repeat constructor; discriminate.
  - repeat constructor; cbn; intuition discriminate.
Qed.
Example ex_states : states_ok ex_st.
Proof. cbn. constructor; auto. Qed.
Example ex_callbacks : callbacks_work cmpN ex_u ex_db.
Proof.
  intros v H. cbn in H.
  assert (K : v = [0; 2] \/ v = [7; 1] \/ v = [7; 3] \/ v = [0; 9]).
  { destruct H as [H|[H|[H|[H|[H|[H|[]]]]]]]; try discriminate H; injection H as <-; auto. }
  exists (ex_rows v). split; [reflexivity|]. split; [reflexivity|].
  destruct K as [-> | [-> | [-> | ->]]]; cbn; split; repeat constructor; unfold keq, len; cbn; try discriminate; try lia.
Qed.
(** What the indexer makes of it, and what is read. *)
Definition ex_ms : list hmsg := match fst (index_row [ex_db] ex_u ex_st) with HOk [ms] => ms | _ => [] end.
Definition ex_read rt rd hk : option (option bytes) :=
  match hot_row cmpN hk ex_ms with Some row => row_read rt rd row | None => None end.
Example ex_reads :
  ex_read C_READ_SNAPSHOT (mkReader 3 [3] 2) [7] = Some (Some [1]) /\
  ex_read C_READ_SNAPSHOT ex_own [7] = Some None /\ ex_read C_READ_SNAPSHOT ex_own [0] = Some (Some [9]) /\ ex_read C_READ_SNAPSHOT ex_own [1] = Some (Some []) /\
  ex_read C_READ_SNAPSHOT (mkReader 9 [6] 9) [0] = Some (Some [2]) /\ ex_read C_READ_ANY ex_own [0] = Some (Some [9]).
Proof. vm_compute. repeat split. Qed.
Example ex_in_order : reads_well C_READ_SNAPSHOT ex_own ex_u ex_st /\ reads_well C_READ_SNAPSHOT (mkReader 3 [3] 2) ex_u ex_st /\ reads_well C_READ_SNAPSHOT (mkReader 9 [6] 9) ex_u ex_st.
Proof. unfold reads_well. split; [|split]; unfold in_order; cbn; repeat constructor; cbn; auto; discriminate. Qed.

Print Assumptions C50_row.
Print Assumptions C50_two_dictionaries_refuted.
Print Assumptions C50_error_pins_refuted.
