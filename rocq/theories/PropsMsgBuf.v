(** C32: transaction id stacks.  C33: message buffers. *)
From Verif Require Import Base Bytes WbufModel WbufProofs XidsModel XidsProofs MsgBufModel MsgBufSpec MsgBufProofs MsgBufInv MsgBufRun LtSpec KOrd KeyCmp.
From Coq Require Import Sorted Permutation.
Open Scope N_scope.

(** * C32 *)

(** The id stacks that exist: that of no transaction, and the result of every successful
    creation of a child.  [ids] are the ids in the order in which they were given, outermost
    first; ids are 64 bit numbers. *)
Inductive stack : xids -> list N -> Prop :=
| st_root : stack root_xids []
| st_child x ids junk i x' : stack x ids -> i < 2 ^ 64 ->
    create_child junk x i = Some (0, Some x') -> stack x' (ids ++ [i]).

Lemma create_child_ok junk x i : xids_ok x ->
  create_child junk x i = Some (if x_num x <? 253 then (0, Some (mkXids (x_num x + 1) (x_ids x ++ [i]))) else (EINVAL, None)).
Proof.
  intros OK. pose proof OK as (E & L & F). unfold create_child, can_create_child, MAX_TRANSACTION_RECORDS, MAX_NESTED_TRANSACTIONS.
  destruct (N.ltb_spec (x_num x) (253 + 1)); [|lia]. destruct (N.ltb_spec (x_num x) 253).
  - destruct (N.eqb_spec (x_num x + 1) (253 + 1)); [lia|]. cbn [negb]. rewrite unknown_ok, finalize_ok; auto.
  - destruct (N.eqb_spec (x_num x + 1) (253 + 1)); [|lia]. reflexivity.
Qed.
Lemma stack_ok x ids : stack x ids -> xids_ok x /\ x_ids x = ids.
Proof.
  induction 1 as [|x ids junk i x' S (OK & E) L C]; [split; [apply root_ok|reflexivity]|].
  rewrite create_child_ok in C by auto. destruct (N.ltb_spec (x_num x) 253); [|discriminate].
  injection C as <-. split; [apply push_ok; auto|]. cbn. congruence.
Qed.

(** Creating a child never aborts; it is refused, with the error EINVAL and without a stack,
    exactly when there are already 253 ids; otherwise the new stack has exactly one id more,
    at the end, whatever was in the memory that was allocated for it. *)
Theorem C32_child_appends_one_id_or_is_refused : forall x ids, stack x ids -> forall junk i, i < 2 ^ 64 ->
  (length ids <= 253)%nat /\
  (length ids = 253%nat -> create_child junk x i = Some (EINVAL, None)) /\
  (length ids <> 253%nat -> exists x', create_child junk x i = Some (0, Some x') /\ stack x' (ids ++ [i])).
Proof.
  intros x ids S junk i I. destruct (stack_ok _ _ S) as (OK & E). pose proof OK as (EN & L & _). rewrite E in EN.
  split; [lia|]. pose proof (create_child_ok junk x i OK) as C. split; intros H.
  - rewrite C. destruct (N.ltb_spec (x_num x) 253); [lia|reflexivity].
  - destruct (N.ltb_spec (x_num x) 253); [|lia]. eexists. split; [exact C|]. eapply st_child; eauto.
Qed.
Print Assumptions C32_child_appends_one_id_or_is_refused.

(** Every stack of at most 253 ids can be built, none with more. *)
Theorem C32_all_stacks_up_to_the_limit_exist : forall ids, Forall (fun i => i < 2 ^ 64) ids ->
  (exists x, stack x ids) <-> (length ids <= 253)%nat.
Proof.
  intros ids F. split.
  - intros (x & S). destruct (stack_ok _ _ S) as ((EN & L & _) & E). rewrite E in EN. lia.
  - intros L. rewrite <- (rev_involutive ids) in *. induction (rev ids) as [|i l IH]; [exists root_xids; constructor|].
    cbn [rev] in *. rewrite app_length in L. cbn [length] in L. apply Forall_app in F as (F1 & F2). inversion F2; subst.
    destruct IH as (x & S); [auto|lia|].
    destruct (C32_child_appends_one_id_or_is_refused x _ S 0 i) as (_ & _ & C); [auto|].
    destruct C as (x' & _ & S'); [lia|]. exists x'. exact S'.
Qed.
Print Assumptions C32_all_stacks_up_to_the_limit_exist.

(** The accessors: the id at every position, none beyond the end; the innermost is the last
    one given, the outermost the first. *)
Theorem C32_stack_is_read_as_given : forall x ids, stack x ids ->
  x_num x = N.of_nat (length ids) /\
  (forall i, get_xid x (N.of_nat i) = nth_error ids i) /\
  innermost_xid x = Some (last ids TXNID_NONE) /\
  outermost_xid x = Some (hd TXNID_NONE ids).
Proof.
  intros x ids S. destruct (stack_ok _ _ S) as ((EN & L & _) & E). rewrite E in EN. split; [auto|].
  assert (G : forall i, get_xid x (N.of_nat i) = nth_error ids i).
  { intros i. unfold get_xid. rewrite E, Nat2N.id. destruct (N.ltb_spec (N.of_nat i) (x_num x)); [reflexivity|].
    symmetry. apply nth_error_None. lia. }
  split; [auto|]. unfold innermost_xid, outermost_xid. rewrite <- EN. destruct ids as [|a l] eqn:EI.
  { cbn. auto. }
  rewrite <- EI in *. assert (LI : (0 < length ids)%nat) by (rewrite EI; cbn; lia).
  destruct (N.eqb_spec (N.of_nat (length ids)) 0); [lia|]. rewrite N.mod_small by lia. split.
  - replace (N.of_nat (length ids) - 1) with (N.of_nat (length ids - 1)) by lia. rewrite G.
    clear - LI. destruct (exists_last (l := ids)) as (l' & z & ->); [destruct ids; cbn in *; [lia|discriminate]|].
    rewrite app_length, last_last. cbn. rewrite Nat.add_sub, nth_error_app2 by lia. now rewrite Nat.sub_diag.
  - change 0 with (N.of_nat 0). rewrite G, EI. reflexivity.
Qed.
Print Assumptions C32_stack_is_read_as_given.

(** Written into a buffer with room for the announced size and read back: the same stack, and
    the bytes behind it are left alone. *)
Theorem C32_stack_round_trip : forall x ids, stack x ids -> forall w, room w (xids_serialize_size x) ->
  exists w' bs, wbuf_nocrc_xids w x = Some w' /\ w_out w' = w_out w ++ bs /\ len bs = 1 + 8 * N.of_nat (length ids) /\
    forall rest, create_from_buffer (bs ++ rest) = Some (x, rest).
Proof.
  intros x ids S w R. destruct (stack_ok _ _ S) as (OK & E). pose proof OK as (EN & _).
  destruct (wbuf_xids_ok w x OK R) as (w' & E1 & _ & E3). exists w', (xids_enc x). split; [auto|]. split; [auto|].
  split; [rewrite len_xids by auto; unfold xids_serialize_size; rewrite <- EN, E; reflexivity|].
  intros rest. apply from_buffer_ok. exact OK.
Qed.
Print Assumptions C32_stack_round_trip.

(** Beginning a transaction that can write: under a parent with 253 ids it is refused with
    EINVAL; otherwise its stack is the parent's with the new id.  A read only transaction has
    no stack and is not refused. *)
Theorem C32_begin_transaction : forall p ids, match p with None => ids = [] | Some x => stack x ids end ->
  forall junk i, i < 2 ^ 64 ->
  txn_begin_xids junk true p i = Some (0, None) /\
  (length ids = 253%nat -> txn_begin_xids junk false p i = Some (EINVAL, None)) /\
  (length ids <> 253%nat -> exists x', txn_begin_xids junk false p i = Some (0, Some x') /\ stack x' (ids ++ [i])).
Proof.
  intros p ids P junk i I. split; [reflexivity|].
  set (x := match p with None => root_xids | Some x => x end).
  assert (S : stack x ids) by (unfold x; destruct p; [auto|subst; constructor]).
  assert (T : txn_begin_xids junk false p i = create_child junk x i).
  { unfold txn_begin_xids, create_child, x. destruct p; reflexivity. }
  rewrite T. apply (C32_child_appends_one_id_or_is_refused x ids S junk i I).
Qed.
Print Assumptions C32_begin_transaction.

(** The hypotheses can be met: a stack of two ids, and a full one. *)
Example C32_two : stack (mkXids 2 [5; 9]) [5; 9].
Proof.
  apply (st_child (mkXids 1 [5]) [5] 77 9); [|reflexivity|reflexivity].
  apply (st_child root_xids [] 3 5); [constructor|reflexivity|reflexivity].
Qed.
Example C32_full : exists x ids, stack x ids /\ length ids = 253%nat /\ create_child 0 x 7 = Some (EINVAL, None).
Proof.
  assert (F : Forall (fun i => i < 2 ^ 64) (repeat 4 253)).
  { apply Forall_forall. intros x H. apply repeat_spec in H. now subst. }
  destruct (proj2 (C32_all_stacks_up_to_the_limit_exist _ F)) as (x & S).
  { rewrite repeat_length. lia. }
  exists x, (repeat 4 253). split; auto. split; [apply repeat_length|].
  apply (C32_child_appends_one_id_or_is_refused _ _ S 0 7); [reflexivity|apply repeat_length].
Qed.
Example C32_written : exists w', wbuf_nocrc_xids (wbuf_init 17) (mkXids 2 [5; 9]) = Some w' /\ create_from_buffer (w_out w') = Some (mkXids 2 [5; 9], []).
Proof. eexists. split; reflexivity. Qed.

(** * C33 *)

(** The bytes a message takes. *)
Definition size_of (m : msg) : N := 19 + 8 * x_num (m_xids m) + len (m_key m) + len (m_val m).
Definition total (es : list entry) : N := fold_right (fun e n => size_of (fst e) + n) 0 es.
Definition has_msn (es : list entry) (n : N) : Prop := exists e, In e es /\ m_msn (fst e) = n.

(** The states of a child's buffer, with the messages it holds.  Messages are put in with
    numbers that are not in the buffer yet, and while the buffer stays within 2^30 bytes (the
    allocation asserts otherwise).  They are applied to basement nodes; the messages that were
    applied are moved to the other tree; after that the buffer may be written and replaced by
    what is read back. *)
Inductive buffer (cmp : bytes -> bytes -> comparison) : bnc -> list entry -> Prop :=
| bf_empty : buffer cmp bnc_empty []
| bf_insert b es m f b' : buffer cmp b es -> msg_ok m -> ~ has_msn es (m_msn m) -> total es + size_of m <= 2 ^ 30 ->
    bnc_insert_msg cmp b m f = Some b' -> buffer cmp b' (es ++ [(m, f)])
| bf_apply b es ls lbe ubi b' : buffer cmp b es -> bnc_apply cmp ls b lbe ubi = Some b' ->
    buffer cmp b' (spec_apply cmp lbe ubi es)
| bf_move b es b' : buffer cmp b es -> move_to_stale cmp b = Some b' -> buffer cmp b' es
| bf_load b es b1 bs b' : buffer cmp b es -> move_to_stale cmp b = Some b1 ->
    partition_write b1 = Some bs -> partition_read bs = Some (Read b') -> buffer cmp b' es.

Lemma total_memof es : oks es -> total es = len (memof es).
Proof.
  induction 1 as [|e l H _ IH]; [reflexivity|]. cbn [total fold_right]. fold (total l). rewrite memof_cons, len_app, IH.
  unfold enc. rewrite len_entry by auto. unfold memsize_in_buffer, sizeof_buffer_entry, xids_size, size_of. lia.
Qed.
Lemma size_memsize m : size_of m = memsize_in_buffer m.
Proof. unfold memsize_in_buffer, sizeof_buffer_entry, xids_size, size_of. lia. Qed.
Lemma has_msn_in es n : has_msn es n <-> In n (msns es).
Proof. unfold has_msn, msns. rewrite in_map_iff. firstorder. Qed.
Lemma same_inv cmp b b' es fi si : same b' b -> Inv cmp b es fi si -> Inv cmp b' es fi si.
Proof. intros (A & B & C & D & E) []. constructor; try assumption; congruence. Qed.
Lemma buffer_inv cmp (ok : cmp_ok cmp) b es : buffer cmp b es -> exists fi si, Inv cmp b es fi si.
Proof.
  induction 1 as [|b es m f b' _ (fi & si & V) M NM T I|b es ls lbe ubi b' _ (fi & si & V) A|b es b' _ (fi & si & V) M|b es b1 bs b' _ (fi & si & V) M W R].
  - exists [], []. apply inv_empty.
  - rewrite has_msn_in in NM. rewrite (total_memof es (v_oks _ _ _ _ _ V)), size_memsize in T.
    destruct (inv_insert cmp ok b es fi si m f V M NM T) as (c & fi' & si' & E & V'). rewrite I in E. injection E as <-. eauto.
  - destruct (inv_apply cmp ok b es fi si ls lbe ubi V) as (c & fi' & E & V'). rewrite A in E. injection E as <-. eauto.
  - destruct (inv_move cmp ok b es fi si V) as (c & fi' & si' & E & V' & _). rewrite M in E. injection E as <-. eauto.
  - destruct (inv_move cmp ok b es fi si V) as (c & fi' & si' & E & V' & _ & NMK). rewrite M in E. injection E as <-.
    destruct (roundtrip cmp b1 es fi' si' V' NMK) as (bs' & b2 & W' & _ & R' & SM). rewrite W in W'. injection W' as <-.
    rewrite R in R'. injection R' as <-. exists fi', si'. eapply same_inv; eauto.
Qed.

(** No operation aborts or reads outside the buffer. *)
Theorem C33_operations_do_not_fail : forall cmp, cmp_ok cmp -> forall b es, buffer cmp b es ->
  (forall m f, msg_ok m -> ~ has_msn es (m_msn m) -> total es + size_of m <= 2 ^ 30 -> exists b', bnc_insert_msg cmp b m f = Some b') /\
  (forall ls lbe ubi, exists b', bnc_apply cmp ls b lbe ubi = Some b') /\
  (exists b1 bs b', move_to_stale cmp b = Some b1 /\ partition_write b1 = Some bs /\ len bs = partition_size b1 /\
                    partition_read bs = Some (Read b')).
Proof.
  intros cmp ok b es B. destruct (buffer_inv cmp ok b es B) as (fi & si & V). split; [|split].
  - intros m f M NM T. rewrite has_msn_in in NM. rewrite (total_memof es (v_oks _ _ _ _ _ V)), size_memsize in T.
    destruct (inv_insert cmp ok b es fi si m f V M NM T) as (c & fi' & si' & E & V'). eauto.
  - intros. destruct (inv_apply cmp ok b es fi si ls lbe ubi V) as (c & fi' & E & V'). eauto.
  - destruct (inv_move cmp ok b es fi si V) as (c & fi' & si' & E & V' & _ & NMK).
    destruct (roundtrip cmp c es fi' si' V' NMK) as (bs' & b2 & W' & L & R' & SM). exists c, bs', b2. auto.
Qed.
Print Assumptions C33_operations_do_not_fail.

(** Iterating over the buffer gives the messages in the order in which they were put in, with
    all their fields and their flags, at any time: also after the buffer was read back. *)
Theorem C33_iteration_gives_the_messages : forall cmp, cmp_ok cmp -> forall b es, buffer cmp b es ->
  iterate (n_buf b) = Some es /\ b_num (n_buf b) = N.of_nat (length es) /\ len (b_mem (n_buf b)) = total es.
Proof.
  intros cmp ok b es B. destruct (buffer_inv cmp ok b es B) as (fi & si & V). pose proof (v_oks _ _ _ _ _ V) as O.
  pose proof (v_mem _ _ _ _ _ V) as M. pose proof (v_num _ _ _ _ _ V) as N. split; [|split; auto].
  - destruct (n_buf b) as [n mem z]. cbn in M. subst. now apply iterate_ok.
  - rewrite M. symmetry. now apply total_memof.
Qed.
Print Assumptions C33_iteration_gives_the_messages.

(** What a tree of offsets says: the messages at the offsets. *)
Definition tree_of (b : bnc) (os : list N) (l : list entry) : Prop :=
  Forall2 (fun o e => get_message (b_mem (n_buf b)) o = Some (fst e) /\ get_freshness (b_mem (n_buf b)) o = Some (snd e)) os l.
(** The three trees partition the messages: the fresh ones for one key and the ones for one
    key that are not fresh, each in the order of keys and then message numbers, and the
    broadcast messages in the order in which they came. *)
Definition classified (cmp : bytes -> bytes -> comparison) (b : bnc) (es : list entry) : Prop :=
  exists F S,
    tree_of b (map fst (n_fresh b)) F /\ Forall (fun p => snd p = false) (n_fresh b) /\
    tree_of b (n_stale b) S /\ tree_of b (n_bcast b) (filter (fun e => negb (once (fst e))) es) /\
    Permutation F (filter (fun e => once (fst e) && snd e) es) /\ StronglySorted (fun x y => before cmp (fst x) (fst y)) F /\
    Permutation S (filter (fun e => once (fst e) && negb (snd e)) es) /\ StronglySorted (fun x y => before cmp (fst x) (fst y)) S.

Definition dflt : entry := (mkMsg 0 0 root_xids [] [], false).
Definition pick (es : list entry) (is : list nat) : list entry := map (fun i => nth i es dflt) is.
Lemma pick_seq (p : entry -> bool) es :
  pick es (filter (fun i => match nth_error es i with Some e => p e | None => false end) (seq 0 (length es))) = filter p es.
Proof.
  enough (H : forall a, pick (a ++ es) (filter (fun i => match nth_error (a ++ es) i with Some e => p e | None => false end) (seq (length a) (length es))) = filter p es)
    by (exact (H [])).
  induction es as [|e es IH]; intros a; [reflexivity|]. cbn [length seq filter].
  rewrite nth_error_app2, Nat.sub_diag by lia. cbn [nth_error].
  specialize (IH (a ++ [e])). rewrite app_length, <- app_assoc in IH. cbn [length app] in IH. rewrite Nat.add_1_r in IH.
  destruct (p e); [|exact IH]. cbn [pick map]. rewrite app_nth2, Nat.sub_diag by lia. cbn [nth]. f_equal. exact IH.
Qed.
Lemma idx_pick c es : pick es (idx c es) = filter (fun e => class_eqb (cls e) c) es.
Proof. unfold idx. rewrite <- pick_seq. reflexivity. Qed.
Lemma tree_of_pick cmp b es fi si is : Inv cmp b es fi si -> (forall i, In i is -> (i < length es)%nat) -> tree_of b (map (off es) is) (pick es is).
Proof.
  intros V L. unfold tree_of, pick. induction is as [|i is IH]; cbn [map]; constructor; [|apply IH; intros; apply L; cbn; auto].
  rewrite (v_mem _ _ _ _ _ V). destruct (nth_error es i) as [e|] eqn:N.
  - rewrite (nth_error_nth _ _ dflt N). split; [apply get_message_i; auto; apply (v_oks _ _ _ _ _ V)|now apply get_freshness_i].
  - apply nth_error_None in N. specialize (L i (or_introl eq_refl)). lia.
Qed.
Lemma km_nth es i : (i < length es)%nat -> km es i = (m_key (fst (nth i es dflt)), m_msn (fst (nth i es dflt))).
Proof.
  intros L. unfold km. destruct (nth_error es i) as [e|] eqn:N; [|apply nth_error_None in N; lia].
  rewrite (nth_error_nth _ _ dflt N). now destruct e.
Qed.
Lemma SS_pick cmp es is : (forall i, In i is -> (i < length es)%nat) -> StronglySorted (lt_i cmp es) is ->
  StronglySorted (fun x y => before cmp (fst x) (fst y)) (pick es is).
Proof.
  intros L S. induction S as [|i is S IH F]; cbn; constructor; [apply IH; intros; apply L; cbn; auto|].
  rewrite Forall_forall in *. intros e E. apply in_map_iff in E as (j & <- & J). specialize (F j J).
  unfold lt_i, kmlt in F. rewrite !km_nth in F by (apply L; cbn; auto). exact F.
Qed.
Lemma inv_classified cmp b es fi si : Inv cmp b es fi si -> no_marks fi -> classified cmp b es.
Proof.
  intros V NM. pose proof (fresh_lt _ _ _ _ _ V) as FL. pose proof (stale_lt _ _ _ _ _ V) as SL.
  destruct (idx_perm_fresh cmp b es fi si V NM) as (PF & PS).
  exists (pick es (map fst fi)), (pick es si). split; [|split; [|split; [|split; [|split; [|split; [|split]]]]]].
  - rewrite (v_fresh _ _ _ _ _ V), map_map. cbn [fst]. rewrite <- map_map with (f := fst) (g := off es). eapply tree_of_pick; eauto.
  - rewrite (v_fresh _ _ _ _ _ V). apply Forall_forall. intros p P. apply in_map_iff in P as (q & <- & Q). cbn [snd].
    exact (proj1 (Forall_forall _ _) NM q Q).
  - rewrite (v_stale _ _ _ _ _ V). eapply tree_of_pick; eauto.
  - rewrite (v_bcast _ _ _ _ _ V). replace (filter _ es) with (pick es (idx Bcast es)).
    + eapply tree_of_pick; eauto. apply idx_lt.
    + rewrite idx_pick. apply filter_ext_In'. intros [m f] _. unfold cls. cbn. destruct (once m), f; reflexivity.
  - replace (filter _ es) with (pick es (idx Fresh es)); [apply Permutation_map, Permutation_sym, PF|].
    rewrite idx_pick. apply filter_ext_In'. intros [m f] _. unfold cls. cbn. destruct (once m), f; reflexivity.
  - apply SS_pick; auto. apply (v_fsort _ _ _ _ _ V).
  - replace (filter _ es) with (pick es (idx Stale es)); [apply Permutation_map, Permutation_sym, PS|].
    rewrite idx_pick. apply filter_ext_In'. intros [m f] _. unfold cls. cbn. destruct (once m), f; reflexivity.
  - apply SS_pick; auto. apply (v_ssort _ _ _ _ _ V).
Qed.

(** The buffer that is written (the applied messages have been moved) and the buffer that is
    read back classify the same messages in the same way, and hold the same bytes and the same
    trees. *)
Theorem C33_written_and_read_back : forall cmp, cmp_ok cmp -> forall b es, buffer cmp b es ->
  exists b1 bs b', move_to_stale cmp b = Some b1 /\ partition_write b1 = Some bs /\ partition_read bs = Some (Read b') /\
    iterate (n_buf b1) = Some es /\ iterate (n_buf b') = Some es /\
    classified cmp b1 es /\ classified cmp b' es /\
    b_mem (n_buf b') = b_mem (n_buf b1) /\ n_fresh b' = n_fresh b1 /\ n_stale b' = n_stale b1 /\ n_bcast b' = n_bcast b1.
Proof.
  intros cmp ok b es B. destruct (buffer_inv cmp ok b es B) as (fi & si & V).
  destruct (inv_move cmp ok b es fi si V) as (c & fi' & si' & E & V' & _ & NMK).
  destruct (roundtrip cmp c es fi' si' V' NMK) as (bs' & b2 & W' & L & R' & SM). exists c, bs', b2.
  split; [auto|]. split; [auto|]. split; [auto|].
  assert (B1 : buffer cmp c es) by (exact (bf_move cmp b es c B E)).
  assert (B2 : buffer cmp b2 es) by (exact (bf_load cmp b es c bs' b2 B E W' R')).
  split; [apply (C33_iteration_gives_the_messages cmp ok _ _ B1)|].
  split; [apply (C33_iteration_gives_the_messages cmp ok _ _ B2)|].
  split; [eapply inv_classified; eauto|]. split; [eapply inv_classified; [eapply same_inv; eauto|exact NMK]|].
  destruct SM as (_ & ? & ? & ? & ?). auto.
Qed.
Print Assumptions C33_written_and_read_back.

(** The reader for older file versions finds only the messages and builds the trees itself
    from them: the same trees. *)
Theorem C33_older_versions_rebuild_the_same_trees : forall cmp, cmp_ok cmp -> forall b es, buffer cmp b es ->
  exists b1, move_to_stale cmp b = Some b1 /\
  forall w, room w (4 + total es) -> exists w' bs, mbuf_write w (n_buf b1) = Some w' /\ w_out w' = w_out w ++ bs /\
  forall rest rsize, exists b', child_buffer_read_v26 cmp (bs ++ rest) rsize = Some (b', rest) /\
    iterate (n_buf b') = Some es /\ classified cmp b' es /\
    n_fresh b' = n_fresh b1 /\ n_stale b' = n_stale b1 /\ n_bcast b' = n_bcast b1.
Proof.
  intros cmp ok b es B. destruct (buffer_inv cmp ok b es B) as (fi & si & V).
  destruct (inv_move cmp ok b es fi si V) as (c & fi' & si' & E & V' & _ & NMK). exists c. split; auto.
  intros w R. assert (R' : room w (4 + len (b_mem (n_buf c)))) by (rewrite (v_mem _ _ _ _ _ V'), <- total_memof; [exact R|apply (v_oks _ _ _ _ _ V')]).
  destruct (roundtrip_v26 cmp ok c es fi' si' w [] 0 V' NMK R') as (w0 & bs & _ & W & OW & _).
  exists w0, bs. split; auto. split; auto. intros rest rsize.
  destruct (roundtrip_v26 cmp ok c es fi' si' w rest rsize V' NMK R') as (w1 & bs1 & b2 & W1 & OW1 & RD & SM).
  rewrite W in W1. injection W1 as <-. rewrite OW in OW1. apply app_inv_head in OW1. subst bs1.
  exists b2. split; auto. pose proof (same_inv _ _ _ _ _ _ SM V') as V2.
  split; [|split; [eapply inv_classified; eauto|destruct SM as (_ & ? & ? & ? & ?); auto]].
  pose proof (v_mem _ _ _ _ _ V2) as M. destruct (n_buf b2) as [n mem z]. cbn in M. subst. apply iterate_ok, (v_oks _ _ _ _ _ V2).
Qed.
Print Assumptions C33_older_versions_rebuild_the_same_trees.

(** A concrete history: three messages (two for keys, the second one first in key order, and
    one broadcast), applied for the keys up to [2], moved, written and read back. *)
Definition ex_m1 : msg := mkMsg 1 10 (mkXids 1 [7]) [3] [100; 101].
Definition ex_m2 : msg := mkMsg 1 11 (mkXids 0 []) [1] [].
Definition ex_m3 : msg := mkMsg 8 12 (mkXids 2 [7; 8]) [] [].
Definition ex_run : option (bnc * bnc * bnc * bnc) :=
  do b1 <- bnc_insert_msg key_cmp bnc_empty ex_m1 true;
  do b2 <- bnc_insert_msg key_cmp b1 ex_m2 true;
  do b3 <- bnc_insert_msg key_cmp b2 ex_m3 true;
  do b4 <- bnc_apply key_cmp true b3 None (Some [2]);
  Some (b1, b2, b3, b4).
Example C33_meets_hypotheses : exists b, buffer key_cmp b [(ex_m1, true); (ex_m2, false); (ex_m3, false)] /\
  exists b1, move_to_stale key_cmp b = Some b1 /\ length (n_fresh b) = 2%nat /\ length (n_fresh b1) = 1%nat /\
             length (n_stale b1) = 1%nat /\ length (n_bcast b1) = 1%nat.
Proof.
  assert (H : match ex_run with Some (b1, b2, b3, b4) =>
     match move_to_stale key_cmp b4 with Some b5 => length (n_fresh b4) = 2%nat /\ length (n_fresh b5) = 1%nat /\
             length (n_stale b5) = 1%nat /\ length (n_bcast b5) = 1%nat | None => False end | None => False end) by (vm_compute; repeat split).
  unfold ex_run in H. 
  destruct (bnc_insert_msg key_cmp bnc_empty ex_m1 true) as [b1|] eqn:E1; [|contradiction].
  destruct (bnc_insert_msg key_cmp b1 ex_m2 true) as [b2|] eqn:E2; [|contradiction].
  destruct (bnc_insert_msg key_cmp b2 ex_m3 true) as [b3|] eqn:E3; [|contradiction].
  destruct (bnc_apply key_cmp true b3 None (Some [2])) as [b4|] eqn:E4; [|contradiction].
  destruct (move_to_stale key_cmp b4) as [b5|] eqn:E5; [|contradiction].
  assert (OK : msg_ok ex_m1 /\ msg_ok ex_m2 /\ msg_ok ex_m3).
  { assert (G : forall t n ids k v, t < 256 -> applies_once t <> None -> n < 2 ^ 64 -> N.of_nat (length ids) <= 253 ->
      Forall (fun i => i < 2 ^ 64) ids -> len k < 2 ^ 32 -> len v < 2 ^ 32 -> msg_ok (mkMsg t n (mkXids (N.of_nat (length ids)) ids) k v)).
    { intros. unfold msg_ok. cbn [m_type m_msn m_xids m_key m_val x_num x_ids]. auto 10. }
    split; [|split].
    - apply (G 1 10 [7] [3] [100; 101]); [reflexivity|discriminate|reflexivity|discriminate| |reflexivity|reflexivity].
      constructor; [reflexivity|constructor].
    - apply (G 1 11 [] [1] []); [reflexivity|discriminate|reflexivity|discriminate|constructor|reflexivity|reflexivity].
    - apply (G 8 12 [7; 8] [] []); [reflexivity|discriminate|reflexivity|discriminate| |reflexivity|reflexivity].
      constructor; [reflexivity|constructor; [reflexivity|constructor]]. }
  destruct OK as (K1 & K2 & K3).
  exists b4. split; [|exists b5; auto].
  change [(ex_m1, true); (ex_m2, false); (ex_m3, false)] with (spec_apply key_cmp None (Some [2]) [(ex_m1, true); (ex_m2, true); (ex_m3, true)]).
  apply (bf_apply key_cmp b3 _ true); [|exact E4].
  apply (bf_insert key_cmp b2 [(ex_m1, true); (ex_m2, true)] ex_m3 true); [|exact K3| |vm_compute; discriminate|exact E3].
  2:{ intros (e & [<-|[<-|[]]] & E); discriminate. }
  apply (bf_insert key_cmp b1 [(ex_m1, true)] ex_m2 true); [|exact K2| |vm_compute; discriminate|exact E2].
  2:{ intros (e & [<-|[]] & E); discriminate. }
  apply (bf_insert key_cmp bnc_empty [] ex_m1 true); [constructor|exact K1| |vm_compute; discriminate|exact E1].
  intros (e & [] & E).
Qed.
