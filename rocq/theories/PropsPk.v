(** C34: pivot keys behave as a list of byte strings in both storage formats. *)
From Verif Require Import Base Bytes X1764Model WbufModel WbufProofs PkModel PkProofs.
Open Scope nat_scope.

(** Everything that can happen to the pivot keys of a node, with the plain list it ought to
    mean.  Each step may find anything in freshly allocated memory ([jb], [jd]).  Keys are not
    empty (see the refutation below), and not longer than 32 bits can say. *)
Definition good (k : bytes) : Prop := k <> [] /\ (len k < 2 ^ 32)%N.
Inductive pivots (null0 : bool) : pk -> list bytes -> Prop :=
| pv_empty : pivots null0 pk_empty []
| pv_create jb ks p : Forall good ks -> create_from_dbts null0 jb ks = Some p -> pivots null0 p ks
| pv_clone jb p ks q : pivots null0 p ks -> clone null0 jb p = Some q -> pivots null0 q ks
| pv_insert jb jd p ks k i q : pivots null0 p ks -> i <= length ks -> good k ->
    insert_at null0 jb jd p k i = Some q -> pivots null0 q (firstn i ks ++ [k] ++ skipn i ks)
| pv_append jb jd p ks p' ks' q : pivots null0 p ks -> pivots null0 p' ks' ->
    append null0 jb jd p p' = Some q -> pivots null0 q (ks ++ ks')
| pv_replace jb jd p ks k i q : pivots null0 p ks -> i <= length ks -> good k ->
    replace_at null0 jb jd p k i = Some q -> pivots null0 q (firstn i ks ++ [k] ++ skipn (S i) ks)
| pv_delete jd p ks i q : pivots null0 p ks -> i < length ks ->
    delete_at null0 jd p i = Some q -> pivots null0 q (firstn i ks ++ skipn (S i) ks)
| pv_split_here jb jd p ks i o q r : pivots null0 p ks -> split_at null0 jb jd p i o = Some (q, r) -> pivots null0 q (firstn i ks)
| pv_split_other jb jd p ks i q r : pivots null0 p ks -> split_at null0 jb jd p i pk_empty = Some (q, r) -> pivots null0 r (skipn i ks)
| pv_read jb p ks w w' bs rest q : pivots null0 p ks -> serialize w p = Some w' -> w_out w' = w_out w ++ bs ->
    deserialize null0 jb (bs ++ rest) (num_pivots p) = Some (q, rest) -> pivots null0 q ks.

Lemma good_keys ks : Forall good ks -> keys_ok ks.
Proof. intros F. eapply Forall_impl; [|exact F]. intros [] (A & _); [congruence|cbn; lia]. Qed.
Lemma good_pos k : good k -> 0 < length k.
Proof. intros (A & _). destruct k; [congruence|cbn; lia]. Qed.
Lemma cut_nth {A} (ks : list A) i : i < length ks -> exists k, ks = firstn i ks ++ k :: skipn (S i) ks.
Proof.
  revert i. induction ks as [|a ks IH]; intros [|i] L; cbn in L; try lia; [exists a; reflexivity|].
  destruct (IH i) as (k & E); [lia|]. exists k. cbn. f_equal. exact E.
Qed.
Lemma good_cut i ks : Forall good ks -> Forall good (firstn i ks) /\ Forall good (skipn i ks).
Proof. intros F. rewrite <- (firstn_skipn i ks) in F. now apply Forall_app. Qed.
Lemma num_rep p ks : Rep p ks -> p_num p = length ks.
Proof. intros (_ & [[]|(m & [])]); auto. Qed.
Lemma firstn_len {A} (ks : list A) i : i <= length ks -> length (firstn i ks) = i.
Proof. intros. rewrite firstn_length. lia. Qed.

Lemma serialize_inv w p ks w' : Rep p ks -> serialize w p = Some w' -> w_out w' = w_out w ++ keys_enc ks.
Proof.
  intros R. unfold serialize. rewrite (other_keys_ok _ _ R). destruct (wput_keys w ks 0) as [[w1 n]|] eqn:E; [|discriminate].
  destruct (n =? serialized_size p); [|discriminate]. intros [= <-]. clear p R.
  revert w E. generalize 0. induction ks as [|k ks IH]; intros m w E; cbn [wput_keys] in E.
  { injection E as <- _. unfold keys_enc. cbn. now rewrite app_nil_r. }
  destruct (negb (length k =? 0)); [|discriminate]. destruct (wbuf_nocrc_bytes w k) as [w2|] eqn:W; [|discriminate].
  apply IH in E. rewrite E. unfold keys_enc. cbn [map concat]. rewrite app_assoc. f_equal.
  unfold wbuf_nocrc_bytes in W. destruct (wbuf_nocrc_uint w (len k)) as [w3|] eqn:W3; [|discriminate].
  apply wput_nocrc_inv in W3 as (_ & _ & W3). apply wput_nocrc_inv in W as (_ & _ & W). rewrite W, W3, <- app_assoc. reflexivity.
Qed.

Lemma replace_any null0 jb jd p ks k i : Rep p ks -> i <= length ks -> 0 < length k ->
  exists q, replace_at null0 jb jd p k i = Some q /\ Rep q (firstn i ks ++ [k] ++ skipn (S i) ks).
Proof.
  intros R L K. destruct (Nat.eq_dec i (length ks)) as [->|NE].
  - destruct (replace_end_ok null0 jb jd p ks k R K) as (q & E & RQ). exists q. split; auto.
    rewrite firstn_all, skipn_all2 by lia. exact RQ.
  - destruct (cut_nth ks i) as (k0 & C); [lia|]. set (a := firstn i ks) in *. set (b := skipn (S i) ks) in *. rewrite C in R.
    destruct (replace_at_ok null0 jb jd p a k0 b k R K) as (q & E & RQ). exists q.
    assert (LA : length a = i) by (unfold a; rewrite firstn_length; lia). rewrite LA in E. auto.
Qed.
Lemma delete_any null0 jd p ks i : Rep p ks -> i < length ks ->
  exists q, delete_at null0 jd p i = Some q /\ Rep q (firstn i ks ++ skipn (S i) ks).
Proof.
  intros R L. destruct (cut_nth ks i L) as (k0 & C). set (a := firstn i ks) in *. set (b := skipn (S i) ks) in *. rewrite C in R.
  destruct (delete_at_ok null0 jd p a k0 b R) as (q & E & RQ). exists q.
  assert (LA : length a = i) by (unfold a; rewrite firstn_length; lia). rewrite LA in E. auto.
Qed.
Lemma split_any null0 jb jd p ks i : Rep p ks -> exists q, Rep q (firstn i ks) /\
  ((i < length ks /\ exists r, Rep r (skipn i ks) /\ forall o, split_at null0 jb jd p i o = Some (q, r)) \/
   (length ks <= i /\ skipn i ks = [] /\ forall o, split_at null0 jb jd p i o = Some (q, o))).
Proof.
  intros R. destruct (Nat.lt_ge_cases i (length ks)) as [L|L].
  - pose proof R as R0. rewrite <- (firstn_skipn i ks) in R.
    assert (NE : skipn i ks <> []) by (intros X; apply (f_equal (@length _)) in X; rewrite skipn_length in X; cbn in X; lia).
    destruct (split_at_ok null0 jb jd p (firstn i ks) (skipn i ks) pk_empty R NE) as (q & r & E & RQ & RR).
    rewrite firstn_len in E by lia. exists q. split; auto. left. split; auto. exists r. split; auto. intros o. rewrite <- E.
    unfold split_at. rewrite (num_rep _ _ R0). destruct (Nat.ltb_spec i (length ks)); [reflexivity|lia].
  - exists p. rewrite firstn_all2 by auto. split; auto. right. split; auto. split; [now apply skipn_all2|].
    intros o. eapply split_beyond_ok; eauto.
Qed.

Lemma pivots_rep null0 p ks : pivots null0 p ks -> Rep p ks /\ Forall good ks.
Proof.
  induction 1 as [|jb ks p G C|jb p ks q _ (R & G) C|jb jd p ks k i q _ (R & G) L K C|jb jd p ks p' ks' q _ (R & G) _ (R' & G') C
    |jb jd p ks k i q _ (R & G) L K C|jd p ks i q _ (R & G) L C|jb jd p ks i o q r _ (R & G) C|jb jd p ks i q r _ (R & G) C|jb p ks w w' bs rest q _ (R & G) S O C].
  - split; [apply empty_rep|constructor].
  - destruct (from_dbts_ok null0 jb ks (good_keys _ G)) as (q & E & R). rewrite C in E. injection E as <-. auto.
  - destruct (clone_ok null0 jb p ks R) as (q' & E & R'). rewrite C in E. injection E as <-. auto.
  - destruct (insert_at_ok null0 jb jd p ks k i R L (good_pos _ K)) as (q' & E & R'). rewrite C in E. injection E as <-.
    destruct (good_cut i ks G). split; [exact R'|]. apply Forall_app. split; auto. constructor; auto.
  - destruct (append_ok null0 jb jd p ks p' ks' R R') as (q' & E & RQ). rewrite C in E. injection E as <-. split; auto. apply Forall_app. auto.
  - destruct (replace_any null0 jb jd p ks k i R L (good_pos _ K)) as (q' & E & R'). rewrite C in E. injection E as <-.
    destruct (good_cut i ks G). destruct (good_cut (S i) ks G). split; [exact R'|]. apply Forall_app. split; auto. constructor; auto.
  - destruct (delete_any null0 jd p ks i R L) as (q' & E & R'). rewrite C in E. injection E as <-.
    destruct (good_cut i ks G). destruct (good_cut (S i) ks G). split; [exact R'|]. apply Forall_app. auto.
  - destruct (split_any null0 jb jd p ks i R) as (q' & RQ & [(L & r' & RR & E)|(L & EN & E)]); rewrite E in C; injection C as <- <-; split; auto; now apply good_cut.
  - destruct (split_any null0 jb jd p ks i R) as (q' & RQ & [(L & r' & RR & E)|(L & EN & E)]); rewrite E in C; injection C as <- <-.
    + split; auto. now apply good_cut.
    + rewrite EN. split; [apply empty_rep|constructor].
  - rewrite (serialize_inv _ _ _ _ R S) in O. apply app_inv_head in O. subst bs. unfold num_pivots in C. rewrite (num_rep _ _ R) in C.
    destruct (deserialize_ok null0 jb ks rest (good_keys _ G)) as (q' & E & R').
    { eapply Forall_impl; [|exact G]. intros k (_ & ?). assumption. }
    rewrite C in E. injection E as <-. auto.
Qed.

(** Nothing aborts or leaves the allocated memory. *)
Theorem C34_operations_succeed_partial : forall null0 p ks, pivots null0 p ks -> forall jb jd,
  (exists q, clone null0 jb p = Some q) /\
  (forall k i, i <= length ks -> good k -> exists q, insert_at null0 jb jd p k i = Some q) /\
  (forall p' ks', pivots null0 p' ks' -> exists q, append null0 jb jd p p' = Some q) /\
  (forall k i, i <= length ks -> good k -> exists q, replace_at null0 jb jd p k i = Some q) /\
  (forall i, i < length ks -> exists q, delete_at null0 jd p i = Some q) /\
  (forall i, exists q r, split_at null0 jb jd p i pk_empty = Some (q, r)).
Proof.
  intros null0 p ks P jb jd. destruct (pivots_rep _ _ _ P) as (R & G). split; [|split; [|split; [|split; [|split]]]].
  - destruct (clone_ok null0 jb p ks R) as (q & E & _). eauto.
  - intros k i L K. destruct (insert_at_ok null0 jb jd p ks k i R L (good_pos _ K)) as (q & E & _). eauto.
  - intros p' ks' P'. destruct (pivots_rep _ _ _ P') as (R' & _). destruct (append_ok null0 jb jd p ks p' ks' R R') as (q & E & _). eauto.
  - intros k i L K. destruct (replace_any null0 jb jd p ks k i R L (good_pos _ K)) as (q & E & _). eauto.
  - intros i L. destruct (delete_any null0 jd p ks i R L) as (q & E & _). eauto.
  - intros i. destruct (split_any null0 jb jd p ks i R) as (q & _ & [(_ & r & _ & E)|(_ & _ & E)]); eauto.
Qed.
Print Assumptions C34_operations_succeed_partial.

(** Indices out of range are refused: the call does not return. *)
Theorem C34_out_of_range_is_refused : forall null0 p ks, pivots null0 p ks -> forall jb jd k i,
  (length ks < i -> insert_at null0 jb jd p k i = None /\ replace_at null0 jb jd p k i = None) /\
  (length ks <= i -> delete_at null0 jd p i = None).
Proof.
  intros null0 p ks P jb jd k i. destruct (pivots_rep _ _ _ P) as (R & _). pose proof (num_rep _ _ R) as N. split; intros L.
  - unfold insert_at, replace_at. rewrite N. destruct (Nat.leb_spec i (length ks)); [lia|].
    destruct (Nat.ltb_spec i (length ks)); [lia|]. destruct (Nat.eqb_spec i (length ks)); [lia|]. auto.
  - unfold delete_at. rewrite N. destruct (Nat.ltb_spec i (length ks)); [lia|]. reflexivity.
Qed.
Print Assumptions C34_out_of_range_is_refused.

(** What can be seen of the pivot keys is the list, whichever format is in use: the count,
    every key, and the size for serialization is the sum of the sizes.  The size recorded for
    memory is the sum too, each key rounded up to a multiple of four in the fixed format. *)
Definition rounded (n : nat) : nat := (n + 3) / 4 * 4.
Theorem C34_pivots_are_the_list_partial : forall null0 p ks, pivots null0 p ks ->
  num_pivots p = length ks /\
  (forall i k, nth_error ks i = Some k -> get_pivot p i = Some k) /\
  serialized_size p = list_sum (map (@length _) ks) /\
  (is_fixed p = false -> total_size p = list_sum (map (@length _) ks)) /\
  (is_fixed p = true -> total_size p = list_sum (map (fun k => rounded (length k)) ks) /\
                        exists n, Forall (fun k => length k = n) ks).
Proof.
  intros null0 p ks P. destruct (pivots_rep _ _ _ P) as (R & G).
  assert (SS : forall l, sum_sizes l = list_sum (map (@length _) l)).
  { induction l as [|k l IH]; [reflexivity|]. cbn [map]. rewrite sum_cons, IH. reflexivity. }
  split; [exact (num_rep _ _ R)|]. split; [intros; eapply get_pivot_ok; eauto|].
  split; [rewrite (serialized_ok _ _ R); apply SS|]. destruct R as (K & [D|(m & F)]).
  - rewrite (dbt_is _ _ D). split; [|discriminate]. intros _. unfold total_size. rewrite (d_tot _ _ D). apply SS.
  - rewrite (fix_is _ _ _ F). split; [discriminate|]. intros _. destruct F. destruct f_slots as (ss & rest & -> & S).
    apply slots_sizes in S. split; [|eauto]. unfold total_size. rewrite f_tot, f_al. clear - S.
    induction S as [|k ks E _ IH]; [cbn; lia|]. cbn [length map]. change (list_sum (rounded (length k) :: map (fun k0 => rounded (length k0)) ks))
      with (rounded (length k) + list_sum (map (fun k0 : bytes => rounded (length k0)) ks)). rewrite <- IH, E. unfold rounded, align4. lia.
Qed.
Print Assumptions C34_pivots_are_the_list_partial.

(** Written into a buffer with room for the lengths and the keys, and read back: the same
    list, and the bytes behind are left alone.  Two arrays in different formats that mean the
    same list are written as the same bytes. *)
Theorem C34_round_trip_partial : forall null0 p ks, pivots null0 p ks ->
  exists bs, len bs = N.of_nat (4 * length ks + list_sum (map (@length _) ks)) /\
    (forall w, room w (len bs) -> exists w', serialize w p = Some w' /\ w_out w' = w_out w ++ bs) /\
    (forall null0' p', pivots null0' p' ks -> forall w, room w (len bs) -> exists w', serialize w p' = Some w' /\ w_out w' = w_out w ++ bs) /\
    (forall jb rest, exists q, deserialize null0 jb (bs ++ rest) (length ks) = Some (q, rest) /\ pivots null0 q ks).
Proof.
  intros null0 p ks P. destruct (pivots_rep _ _ _ P) as (R & G). exists (keys_enc ks).
  assert (SS : forall l, sum_sizes l = list_sum (map (@length _) l)).
  { induction l as [|k l IH]; [reflexivity|]. cbn [map]. rewrite sum_cons, IH. reflexivity. }
  assert (W : forall p', Rep p' ks -> forall w, room w (len (keys_enc ks)) -> exists w', serialize w p' = Some w' /\ w_out w' = w_out w ++ keys_enc ks).
  { intros p' R' w RM. rewrite len_keys_enc in RM. destruct (serialize_ok w p' ks R' RM) as (w' & E & _ & O). eauto. }
  split; [now rewrite len_keys_enc, SS|]. split; [auto|]. split.
  - intros null0' p' P'. apply W. now apply pivots_rep in P'.
  - intros jb rest. destruct (deserialize_ok null0 jb ks rest (good_keys _ G)) as (q & E & RQ).
    { eapply Forall_impl; [|exact G]. intros k (_ & ?). assumption. }
    exists q. split; auto.
    set (w0 := mkW (len (keys_enc ks)) [] X1764Model.x1764_init). 
    destruct (W p R w0) as (w' & E1 & O1); [unfold room, w0; cbn; lia|].
    apply (pv_read null0 jb p ks w0 w' (keys_enc ks) rest q P E1 O1). unfold num_pivots. now rewrite (num_rep _ _ R).
Qed.
Print Assumptions C34_round_trip_partial.

(** What is missing: keys of length zero, which the interface of the dictionary accepts
    (ydb_write.cc:117-130 checks only the largest sizes).  A list of pivots with an empty key
    cannot be written, and an empty key cannot be the first one: both abort. *)
Theorem C34_empty_pivot_key_refuted : forall null0 jb jd,
  (forall k r, k <> [] -> exists p, create_from_dbts null0 jb ([] :: k :: r) = Some p /\ get_pivot p 0 = Some [] /\
                                   get_pivot p 1 = Some k /\ forall w, serialize w p = None) /\
  insert_at null0 jb jd pk_empty [] 0 = None.
Proof.
  intros null0 jb jd. split.
  - intros k r NE. unfold create_from_dbts. cbn [same_size]. destruct (Nat.eqb_spec (length k) (length (@nil N))) as [E|_].
    { destruct k; [congruence|discriminate]. }
    cbn [andb]. unfold ptr. cbn [is_nil]. rewrite andb_false_r.
    set (p := mkPk _ _ _ _ _ _).
    assert (D : Dbt p ([] :: k :: r)) by (constructor; cbn; auto).
    exists p. split; [exact (dbt_sanity _ _ D)|]. split; [reflexivity|]. split; [reflexivity|].
    intros w. unfold serialize, other_keys, p. cbn [p_fixed p_dbt p_num].
    rewrite slice_all. cbn [wput_keys length Nat.eqb negb]. reflexivity.
  - unfold insert_at. cbn [p_num pk_empty length Nat.leb is_fixed p_fixed andb]. unfold insert_dbt, realloc. cbn [p_dbt pk_empty p_num Nat.add].
    unfold resize. cbn [app seq map firstn]. unfold ptr. cbn [is_nil]. rewrite andb_false_r. reflexivity.
Qed.
Print Assumptions C34_empty_pivot_key_refuted.

(** A history that goes through both formats: two keys of equal length, one of another
    length, that one deleted, the rest written and read back (fixed format again). *)
Example C34_meets_hypotheses : exists p q, pivots false p [[1%N; 2%N]; [9%N]; [3%N; 4%N]] /\ is_fixed p = false /\
  pivots false q [[1%N; 2%N]; [3%N; 4%N]] /\ is_fixed q = true /\ total_size q = 8 /\ serialized_size q = 4.
Proof.
  assert (G : forall a b, good [a; b]) by (split; [discriminate|reflexivity]).
  assert (G1 : good [9%N]) by (split; [discriminate|reflexivity]).
  pose (jb := fun _ : nat => 77%N). pose (jd := fun _ : nat => [7%N]).
  destruct (create_from_dbts false jb [[1%N; 2%N]; [3%N; 4%N]]) as [p0|] eqn:E0; [|discriminate].
  assert (P0 : pivots false p0 [[1%N; 2%N]; [3%N; 4%N]]) by (eapply pv_create; [|exact E0]; repeat constructor; auto; apply G).
  destruct (insert_at false jb jd p0 [9%N] 1) as [p1|] eqn:E1.
  2:{ injection E0 as <-. discriminate. }
  assert (P1 : pivots false p1 [[1%N; 2%N]; [9%N]; [3%N; 4%N]]) by (apply (pv_insert false jb jd p0 _ [9%N] 1 p1 P0); auto; cbn; lia).
  destruct (delete_at false jd p1 1) as [p2|] eqn:E2.
  2:{ injection E0 as <-. injection E1 as <-. discriminate. }
  assert (P2 : pivots false p2 [[1%N; 2%N]; [3%N; 4%N]]) by (apply (pv_delete false jd p1 _ 1 p2 P1); auto; cbn; lia).
  destruct (C34_round_trip_partial false p2 _ P2) as (bs & _ & _ & _ & RD). destruct (RD jb []) as (q & _ & _).
  exists p1, p0. split; [exact P1|]. injection E0 as <-. injection E1 as <-. split; [reflexivity|]. split; [exact P0|]. repeat split.
Qed.
