(** Lemmas about the id stacks. *)
From Verif Require Import Base Bytes X1764Model WbufModel WbufProofs XidsModel.
Open Scope N_scope.

(** A transaction's id stack: as many ids as recorded, at most 253 of them, each a uint64_t. *)
Definition xids_ok (x : xids) : Prop :=
  N.of_nat (length (x_ids x)) = x_num x /\ x_num x <= 253 /\ Forall (fun i => i < 2 ^ 64) (x_ids x).
Definition xids_enc (x : xids) : bytes := x_num x :: concat (map ull_enc (x_ids x)).

Lemma root_ok : xids_ok root_xids.
Proof. repeat split. cbn. lia. constructor. Qed.
Lemma store_last l v w : store (l ++ [v]) (length l) w = Some (l ++ [w]).
Proof. induction l; cbn; auto. now rewrite IHl. Qed.
Lemma xids_full x : xids_ok x -> firstn (N.to_nat (x_num x)) (x_ids x) = x_ids x.
Proof. intros (E & _). rewrite <- E, Nat2N.id. apply firstn_all. Qed.
Lemma unknown_ok j x : xids_ok x -> x_num x < 253 ->
  create_unknown_child j x = Some (mkXids (x_num x) (x_ids x ++ [j])).
Proof.
  intros OK L. unfold create_unknown_child, MAX_TRANSACTION_RECORDS, MAX_NESTED_TRANSACTIONS.
  destruct (N.ltb_spec (x_num x + 1) (253 + 1)); [|lia]. now rewrite xids_full.
Qed.
Lemma finalize_ok j x i : xids_ok x -> x_num x < 253 ->
  finalize_with_child (mkXids (x_num x) (x_ids x ++ [j])) i = Some (mkXids (x_num x + 1) (x_ids x ++ [i])).
Proof.
  intros (E & _) L. unfold finalize_with_child. cbn [x_num x_ids]. rewrite N.mod_small by lia.
  destruct (N.ltb_spec 0 (x_num x + 1)); [|lia]. rewrite N.add_sub, <- E, Nat2N.id, store_last. reflexivity.
Qed.
Lemma push_ok x i : xids_ok x -> x_num x < 253 -> i < 2 ^ 64 -> xids_ok (mkXids (x_num x + 1) (x_ids x ++ [i])).
Proof.
  intros (E & _ & F) L I. split; [|split]; cbn [x_num x_ids].
  - rewrite app_length. cbn. lia.
  - lia.
  - apply Forall_app. auto.
Qed.

Lemma len_concat_ull l : len (concat (map ull_enc l)) = 8 * N.of_nat (length l).
Proof. induction l; cbn [map concat length]; [reflexivity|]. rewrite len_app, len_ull, IHl. lia. Qed.
Lemma len_xids x : xids_ok x -> len (xids_enc x) = xids_serialize_size x.
Proof.
  intros (E & _). unfold xids_enc, xids_serialize_size.
  replace (len (x_num x :: concat (map ull_enc (x_ids x)))) with (1 + len (concat (map ull_enc (x_ids x)))) by (unfold len; cbn [length]; lia).
  rewrite len_concat_ull, E. reflexivity.
Qed.
Lemma wput_ids_ok w a l : room w (8 * N.of_nat (length l)) ->
  exists w', wput_ids w (mkXids 0 (a ++ l)) (length a) (length l) = Some w' /\ w_size w' = w_size w /\
             w_out w' = w_out w ++ concat (map ull_enc l).
Proof.
  revert w a. induction l as [|i l IH]; intros w a R; cbn [length wput_ids map concat].
  { exists w. rewrite app_nil_r. auto. }
  cbn [x_ids]. rewrite nth_error_app2, Nat.sub_diag by lia. cbn [nth_error].
  destruct (wbuf_nocrc_ull_ok w i) as (w1 & E1 & E2 & E3); [unfold room in *; cbn [length] in R; lia|]. rewrite E1.
  destruct (IH w1 (a ++ [i])) as (w2 & F1 & F2 & F3).
  { unfold room in *. rewrite E2, E3, len_app, len_ull. cbn [length] in R. lia. }
  rewrite <- app_assoc, app_length, Nat.add_1_r in F1. cbn [app] in F1.
  exists w2. split; [exact F1|]. split; [congruence|]. rewrite F3, E3, <- app_assoc. reflexivity.
Qed.
Lemma wput_ids_num w n ids a b : wput_ids w (mkXids n ids) a b = wput_ids w (mkXids 0 ids) a b.
Proof. revert w a. induction b; intros w a; cbn; auto. destruct (nth_error ids a); auto. destruct (wbuf_nocrc_ull w n0); auto. Qed.
Lemma wbuf_xids_ok w x : xids_ok x -> room w (xids_serialize_size x) ->
  exists w', wbuf_nocrc_xids w x = Some w' /\ w_size w' = w_size w /\ w_out w' = w_out w ++ xids_enc x.
Proof.
  intros OK R. destruct OK as (E & L & F). unfold wbuf_nocrc_xids, wbuf_nocrc_char, xids_serialize_size in *.
  destruct (wput_nocrc_ok w [x_num x]) as (w1 & E1 & E2 & E3); [unfold room in *; cbn; lia|]. rewrite E1.
  rewrite <- E, Nat2N.id in *. destruct x as [n ids]. cbn [x_num x_ids] in *. rewrite wput_ids_num.
  destruct (wput_ids_ok w1 [] ids) as (w2 & F1 & F2 & F3).
  { unfold room in *. rewrite E2, E3, len_app. change (len [N.of_nat (length ids)]) with 1. lia. }
  cbn [app length] in F1. exists w2. split; [exact F1|]. split; [congruence|].
  rewrite F3, E3, <- app_assoc. unfold xids_enc. cbn [x_num x_ids app]. rewrite <- E. reflexivity.
Qed.
Lemma rget_ids_ok l r : Forall (fun i => i < 2 ^ 64) l -> rget_ids (concat (map ull_enc l) ++ r) (length l) = Some (l, r).
Proof.
  induction 1; cbn [map concat length rget_ids app]; auto.
  rewrite <- app_assoc, rbuf_ull_app by auto. now rewrite IHForall.
Qed.
Lemma from_buffer_ok x r : xids_ok x -> create_from_buffer (xids_enc x ++ r) = Some (x, r).
Proof.
  intros (E & L & F). unfold create_from_buffer, xids_enc. cbn [app rbuf_char].
  unfold MAX_TRANSACTION_RECORDS, MAX_NESTED_TRANSACTIONS. destruct (N.ltb_spec (x_num x) (253 + 1)); [|lia].
  rewrite <- E, Nat2N.id, rget_ids_ok by auto. destruct x; cbn in *. now rewrite E.
Qed.
