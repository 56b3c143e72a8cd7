(** C06 and C07: the packed format of a row. *)
From Verif Require Import Base Bytes UleModel UleSpec LeCodecModel LeCodecProofs
  LeAccProofs UleWf.
Open Scope N_scope.

(** ** C06: packing and unpacking a row loses nothing *)

(** A well-formed row with at least one insert is packed in exactly the
    announced number of bytes, and unpacking these bytes (whatever follows them
    in memory) gives back the same stacks and the bytes that follow. *)
Theorem C06_pack_unpack : forall u,
  ule_wf u -> N.of_nat (length (cx u)) < 2 ^ 32 -> has_insert u = true ->
  exists bs, le_pack u = Some (Some bs) /\ le_memsize_from_ule u = Some (len bs) /\
    forall rest, exists u', le_unpack (bs ++ rest) = Some (u', rest)
      /\ cx u' = cx u /\ px u' = px u.
Proof.
  intros u W Hn Hi. destruct (le_pack_ok u W Hn Hi) as (bs & H1 & H2 & H3).
  exists bs. repeat split; auto. intros rest. exists (ule_reload u). auto.
Qed.
Print Assumptions C06_pack_unpack.

(** A row without any insert is not stored, and only such a row is dropped. *)
Theorem C06_dropped_iff_no_insert : forall u,
  ule_wf u -> N.of_nat (length (cx u)) < 2 ^ 32 ->
  (le_pack u = Some None <-> has_insert u = false).
Proof.
  intros u W Hn. destruct (has_insert u) eqn:Hi.
  - destruct (le_pack_ok u W Hn Hi) as (bs & H1 & _). rewrite H1. split; congruence.
  - split; [reflexivity|]. intros _. destruct W as [_ _ (l & c & E) _ _].
    unfold le_pack. destruct (cx u) as [|a k] eqn:Ec; [destruct l; discriminate|].
    rewrite E, last_last. cbn [ux_xid]. rewrite N.eqb_refl, Hi. reflexivity.
Qed.
Print Assumptions C06_dropped_iff_no_insert.

(** Two rows that pack to the same bytes are the same. *)
Theorem C06_pack_injective : forall u1 u2 bs,
  ule_wf u1 -> ule_wf u2 ->
  N.of_nat (length (cx u1)) < 2 ^ 32 -> N.of_nat (length (cx u2)) < 2 ^ 32 ->
  le_pack u1 = Some (Some bs) -> le_pack u2 = Some (Some bs) ->
  cx u1 = cx u2 /\ px u1 = px u2.
Proof.
  intros u1 u2 bs W1 W2 N1 N2 P1 P2.
  assert (I1 : has_insert u1 = true).
  { destruct (has_insert u1) eqn:Hi; auto.
    apply C06_dropped_iff_no_insert in Hi; auto. congruence. }
  assert (I2 : has_insert u2 = true).
  { destruct (has_insert u2) eqn:Hi; auto.
    apply C06_dropped_iff_no_insert in Hi; auto. congruence. }
  destruct (C06_pack_unpack u1 W1 N1 I1) as (b1 & Q1 & _ & R1).
  destruct (C06_pack_unpack u2 W2 N2 I2) as (b2 & Q2 & _ & R2).
  rewrite P1 in Q1. rewrite P2 in Q2. injection Q1 as <-. injection Q2 as <-.
  destruct (R1 []) as (v1 & U1 & A1 & B1). destruct (R2 []) as (v2 & U2 & A2 & B2).
  rewrite U1 in U2. injection U2 as <-. split; congruence.
Qed.
Print Assumptions C06_pack_injective.

(** Whatever messages and garbage collections a row goes through, it stays
    well formed ... *)
Theorem C06_reachable_rows_well_formed : forall ops r,
  Forall row_op_ok ops -> row_run row_step None ops = Some r -> row_wf r.
Proof. intros ops r H. apply row_run_wf; auto. exact I. Qed.
Print Assumptions C06_reachable_rows_well_formed.

(** ... and running the whole history on packed bytes, unpacking and packing at
    every step, gives exactly the packed form of the history run without ever
    packing: no step loses or invents anything. *)
Theorem C06_history_on_bytes : forall ops r,
  Forall row_op_ok ops -> small_run None ops ->
  row_run row_step None ops = Some r ->
  exists ob, row_run row_step_bytes None ops = Some ob /\ stores ob r.
Proof. intros ops r H Hs Hr. eapply row_run_bytes; eauto; exact I. Qed.
Print Assumptions C06_history_on_bytes.

(** A row with three nested provisional records, a placeholder and two committed
    versions. *)
Definition c06_row : ule :=
  mkUle [mkUxr 7 (XIns [1; 2; 3]); mkUxr 0 XDel]
        [mkUxr 20 (XIns [9]); mkUxr 21 XPlace; mkUxr 22 XDel; mkUxr 23 (XIns [])] 508.
Example C06_case : ule_wf c06_row /\ has_insert c06_row = true.
Proof.
  split; [|reflexivity]. constructor; cbn [cx px c06_row].
  - repeat constructor; discriminate.
  - repeat constructor.
  - exists [mkUxr 7 (XIns [1; 2; 3])], XDel. reflexivity.
  - discriminate.
  - cbn. unfold MAX_TRANSACTION_RECORDS. lia.
Qed.

(** A history that satisfies the hypotheses: a nested insert, an abort of the
    child, a commit of the root, another transaction's delete. *)
Definition gi0 : gc_info := mkGcInfo None 0 0 true.
Definition c06_ops : list row_op :=
  [RMsg (mkUmsg (FT_INSERT [5; 6]) [10]) gi0; RMsg (mkUmsg (FT_INSERT [7]) [10; 12]) gi0;
   RMsg (mkUmsg FT_ABORT_ANY [10; 12]) gi0; RMsg (mkUmsg FT_COMMIT_ANY [10]) gi0;
   RMsg (mkUmsg FT_DELETE_ANY [20]) gi0; RGc (mkGcInfo (Some (true, mkGc [] [] [20])) 20 20 true)].
Example C06_history_case : Forall row_op_ok c06_ops /\ small_run None c06_ops /\
  exists u, row_run row_step None c06_ops = Some (Some u).
Proof.
  split; [|split].
  - repeat constructor; discriminate.
  - vm_compute. repeat split.
  - eexists. vm_compute. reflexivity.
Qed.

(** ** C07: the accessors that read the packed bytes agree with unpacking *)

(** For every byte string that unpacks to [u] (the entry followed by [rest]): *)
Theorem C07_accessors : forall bs u rest, le_unpack bs = Some (u, rest) ->
  exists r, (* r is the value of the innermost record *)
    (ule_innermost u = Some r)
    /\ le_latest_is_del bs = Some (is_del (ux_xr r))
    /\ le_latest_vallen bs = Some (xr_len (ux_xr r))
    /\ le_latest_val_and_len bs =
         Some (match ux_xr r with XIns v => (len v, Some v) | _ => (0, None) end)
    /\ le_outermost_uncommitted_xid bs =
         Some (match px u with [] => TXNID_NONE | o :: _ => ux_xid o end)
    /\ leafentry_memsize bs = Some (len bs - len rest)
    /\ len rest <= len bs.
Proof.
  intros bs u rest H.
  destruct (le_latest_is_del_ok _ _ _ H) as (r1 & I1 & A1).
  destruct (le_latest_vallen_ok _ _ _ H) as (r2 & I2 & A2).
  destruct (le_latest_val_ok _ _ _ H) as (r3 & I3 & A3).
  unfold inner_xr in *. destruct (ule_innermost u) as [i|]; [|discriminate].
  injection I1 as <-. injection I2 as <-. injection I3 as <-.
  destruct (leafentry_memsize_ok _ _ _ H) as [M1 M2].
  exists i. repeat split; auto. eapply le_outermost_ok; eauto.
Qed.
Print Assumptions C07_accessors.

(** Broadcast messages test the outermost provisional transaction. *)
Theorem C07_has_xids : forall bs u rest x xs, le_unpack bs = Some (u, rest) ->
  x <> TXNID_NONE ->
  le_has_xids bs (x :: xs) = Some (match px u with [] => false | o :: _ => ux_xid o =? x end).
Proof. intros bs u rest x xs H Hx. eapply le_has_xids_ok; eauto. Qed.
Print Assumptions C07_has_xids.

(** The readers: for every acceptance test [f] the packed reader returns the
    value of the record the unpacked reader selects. *)
Theorem C07_readers : forall bs u rest f, le_unpack bs = Some (u, rest) ->
  exists r, le_iterate (fun x => f x true) (fun x => f x false) u = Some r
    /\ le_iterate_val f bs = Some (match r with XIns v => (len v, Some v) | _ => (0, None) end)
    /\ le_iterate_is_del f bs = Some (is_del r).
Proof.
  intros bs u rest f H.
  destruct (le_iterate_val_ok _ _ _ H f) as (r & H1 & H2).
  destruct (le_iterate_is_del_ok _ _ _ H f) as (r' & H3 & H4).
  rewrite H1 in H3. injection H3 as <-. eauto.
Qed.
Print Assumptions C07_readers.

(** The size of a packed row is what le_pack announced. *)
Theorem C07_memsize_of_packed : forall u bs, ule_wf u -> N.of_nat (length (cx u)) < 2 ^ 32 ->
  le_pack u = Some (Some bs) -> forall rest, leafentry_memsize (bs ++ rest) = Some (len bs).
Proof.
  intros u bs W Hn Hp rest.
  assert (I1 : has_insert u = true).
  { destruct (has_insert u) eqn:Hi; auto.
    apply C06_dropped_iff_no_insert in Hi; auto. congruence. }
  destruct (le_pack_ok u W Hn I1) as (b & H1 & _ & H3).
  rewrite Hp in H1. injection H1 as <-.
  destruct (leafentry_memsize_ok _ _ _ (H3 rest)) as [-> _].
  f_equal. rewrite len_app. lia.
Qed.
Print Assumptions C07_memsize_of_packed.

Example C07_case : exists bs, le_pack c06_row = Some (Some bs) /\ exists u, le_unpack bs = Some (u, []).
Proof. eexists. split; [vm_compute; reflexivity|]. eexists. vm_compute. reflexivity. Qed.

(** The "clean" test says whether the packed row has a single committed version
    and no uncommitted ones. *)
Theorem C07_is_clean : forall u bs, le_pack u = Some (Some bs) -> forall rest,
  le_is_clean (bs ++ rest) = Some ((length (cx u) =? 1)%nat && (length (px u) =? 0)%nat).
Proof.
  intros u bs H rest. unfold le_pack in H. destruct (cx u) as [|c k] eqn:Ec; [discriminate|].
  destruct (ux_xid (last (c :: k) c) =? TXNID_NONE); [|discriminate].
  destruct (has_insert u); [|discriminate].
  destruct (le_memsize_from_ule u); [|discriminate].
  destruct (le_pack_bytes u) as [b|] eqn:Eb; [|discriminate].
  destruct (len b =? n); [|discriminate]. apply Some_inj in H. apply Some_inj in H. subst b.
  unfold le_pack_bytes in Eb. rewrite Ec in Eb.
  destruct k as [|c2 k]; destruct (px u) as [|p ps] eqn:Ep.
  - destruct (ux_xr c); try discriminate. apply Some_inj in Eb. subst bs. reflexivity.
  - destruct (_ <? MAX_TRANSACTION_RECORDS)%nat; [|discriminate].
    apply Some_inj in Eb. subst bs. reflexivity.
  - destruct (_ <? MAX_TRANSACTION_RECORDS)%nat; [|discriminate].
    apply Some_inj in Eb. subst bs. reflexivity.
  - destruct (_ <? MAX_TRANSACTION_RECORDS)%nat; [|discriminate].
    apply Some_inj in Eb. subst bs. reflexivity.
Qed.
Print Assumptions C07_is_clean.
