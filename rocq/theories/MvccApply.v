(** Applying messages, promoting and collecting keep every copy of a row in step
    with the ideal row. *)
From Verif Require Import Base Bytes UleModel UleSpec LeCodecProofs LeAccProofs UleWf
  MgrModel MgrSpec MgrProofs MvccModel StackProofs MvccGc MvccRow.
Open Scope N_scope.

Lemma crow_mono (S S' : (txnid -> bool) -> Prop) (gone gone' src src' fin fin' clos clos' : txnid -> Prop) u a :
  (forall f, S' f -> S f) -> (forall x, gone x -> gone' x) -> (forall x, src x -> src' x) ->
  (forall x, fin x -> fin' x) -> (forall x, clos x -> clos' x) ->
  crow S gone src fin clos u a -> crow S' gone' src' fin' clos' u a.
Proof.
  intros HS Hg Hs Hf Hc [W Hw Hl Hm Hx [K1 K2] R]. constructor; auto.
  - intros x X E. eauto.
  - split; auto. intros x Hi. destruct (K1 x Hi) as [? [|[? ?]]]; auto.
  - destruct R as [(LA & R1 & R2 & R3 & R4)|(R1 & (x & X & R2 & R3) & R4)]; [left|right].
    + exists LA. repeat split; auto.
      * intros f Hfs. apply R3. auto.
      * destruct R4 as [|[? ?]]; auto.
    + split; auto. split; [eauto|]. intros f Hfs. apply R4. auto.
Qed.

Lemma crowo_mono (S S' : (txnid -> bool) -> Prop) (gone gone' src src' fin fin' clos clos' : txnid -> Prop) o a :
  (forall f, S' f -> S f) -> (forall x, gone x -> gone' x) -> (forall x, src x -> src' x) ->
  (forall x, fin x -> fin' x) -> (forall x, clos x -> clos' x) ->
  crowo S gone src fin clos o a -> crowo S' gone' src' fin' clos' o a.
Proof. intros ? ? ? ? ?. destruct o; apply crow_mono; auto. Qed.

Lemma crow_reload S gone src fin clos u a : crow S gone src fin clos u a -> crow S gone src fin clos (ule_reload u) a.
Proof.
  intros [W Hw Hl Hm Hx K R]. constructor; auto.
  apply reload_wf; auto.
Qed.

Definition unrow (o : option ule) : ule := match o with None => ule_init_empty | Some u => ule_reload u end.

Lemma crow_unrow S gone src fin clos o a : crowo S gone src fin clos o a ->
  crow S gone src fin clos (unrow o) a /\ room 255 (unrow o).
Proof.
  destruct o as [u|]; cbn; intros H; split; auto using crow_reload, reload_room, init_room.
Qed.

Definition kind_type (k : kind) : option msg_type :=
  match k with
  | KIns v => Some (FT_INSERT v)
  | KInsNo v => Some (FT_INSERT_NO_OVERWRITE v)
  | KDel => Some FT_DELETE_ANY
  | KAbort => Some FT_ABORT_ANY
  | KCommit => Some FT_COMMIT_ANY
  | _ => None
  end.

Definition kind_small (k : kind) : Prop :=
  match k with KIns v | KInsNo v => N.of_nat (length v) < 2 ^ 31 | _ => True end.

Lemma nonbottom_pushed u a S o p : rel1 S u a -> cx u <> [] -> px u = o :: p ->
  exists x X, ar_x a = x :: X /\ nonbottom (cx (pushed u)) = x :: nonbottom (cx u).
Proof.
  intros (LA & Hl & Hp & _) Hc E. unfold pushed. rewrite E. cbn [cx]. rewrite nonbottom_cons by auto.
  cbn [ux_xid]. rewrite Hp in E. destruct (zipx_head _ _ _ _ E) as (x & X & EX & ->). eauto.
Qed.

Lemma pushed_nil u : px u = [] -> pushed u = u.
Proof. unfold pushed. intros ->. auto. Qed.

Lemma pushed_wf u : ule_wf u -> room 1 u -> ule_wf (pushed u).
Proof.
  intros W Hr. destruct (px u) eqn:E; [rewrite pushed_nil; auto|].
  eapply promote_committed_wf; [exact W|]. apply pushed_promote; auto. congruence.
Qed.

Section Msg.
Context (S : (txnid -> bool) -> Prop) (HS : S (fun _ => true)).
Context (gone src fin clos gone' src' fin' clos' : txnid -> Prop).

(** A message of root [q] with chain [Y]. *)
Lemma modify_ok u a Y q k t : crow S gone src fin clos u a -> room 255 u ->
  kind_type k = Some t -> kind_small k -> chain_ok Y -> hd_eq [q] Y = true ->
  (forall x, src x -> src' x) -> src' q ->
  (forall x, src x -> x <> q -> fin' x) -> (forall x, gone x -> x <> q) -> ~ fin q ->
  (clos q -> k = KCommit) -> (k = KCommit -> clos' q /\ Y = [q]) ->
  exists u1 z, msg_modify_ule u (mkUmsg t Y) = Some (u1, z)
    /\ crow S gone' src' fin' clos' u1 (astep a (mkRmsg k Y)) /\ room 253 u1.
Proof.
  intros C Hroom Hk Hsm HY Hq Hsrc Hsq Hfin' Hgone Hfq Hclos Hcom.
  destruct HY as (HYn & HYd & HYo & HYm).
  destruct Y as [|q' Y0] eqn:EYY; [congruence|]. cbn in Hq. apply N.eqb_eq in Hq. subst q'. rewrite <- EYY in *.
  pose proof (cr_wf _ _ _ _ _ _ _ C) as W. pose proof (cr_w _ _ _ _ _ _ _ C) as Hw.
  pose proof (cr_len _ _ _ _ _ _ _ C) as Hlen. pose proof (cr_max _ _ _ _ _ _ _ C) as Hmax.
  pose proof (cr_rel _ _ _ _ _ _ _ C) as Hrel. destruct (cr_stack _ _ _ _ _ _ _ C) as [K1 K2].
  pose proof (cr_src _ _ _ _ _ _ _ C) as Hxs.
  pose proof (wf_nonempty u W) as Hc.
  destruct (turn_ok S gone u a Y W Hw Hlen Hmax Hrel HYn) as (u1 & E1 & R1 & Hr1 & Hcase); auto.
  { intros x X EX Hg. cbn. rewrite EYY. apply N.eqb_neq. apply Hgone; auto. }
  assert (W1 : ule_wf u1) by (eapply implicit_wf; eauto).
  destruct (turn_fields Y a) as [TX TL]. specialize (TL Hlen). pose proof (turn_w Y a Hw) as TW.
  set (b := turn Y a) in *.
  assert (Hlb : length (ar_x b) = length (ar_l b)) by (rewrite TX; auto).
  assert (Hq1 : forall x, In x (nonbottom (cx u)) -> px u <> [] -> x <> q).
  { intros x Hx Hp ->. destruct (K1 _ Hx) as [_ [Hf|[Hp' _]]]; auto. }
  (* the stack after the turn *)
  assert (T : (forall x, In x (nonbottom (cx u1)) -> src' x /\ (fin' x \/ (x = q /\ px u1 = [] /\ clos q)))
              /\ (forall x, In x (tl (nonbottom (cx u1))) -> fin' x)).
  { destruct Hcase as [[Ec Hp]|(Hp & -> & Eh)].
    - rewrite Ec. split.
      + intros x Hx. destruct (K1 x Hx) as [Hs Hor]. split; auto.
        destruct (N.eq_dec x q) as [->|Hn]; [right|left; auto].
        destruct Hor as [|[Hp' Hcl]]; [tauto|auto].
      + intros x Hx. pose proof (K2 x Hx) as Hfx. apply Hfin'.
        * apply K1. destruct (nonbottom (cx u)); [destruct Hx|right; auto].
        * intros ->. auto.
    - destruct (px u) as [|o p] eqn:Ep; [congruence|].
      assert (R1u : rel1 S u a) by (destruct Hrel as [|(Hpn & _)]; [auto|congruence]).
      destruct (nonbottom_pushed u a S o p R1u Hc Ep) as (x0 & X0 & EX & En). rewrite En.
      assert (Hall : forall x, In x (nonbottom (cx u)) -> fin' x).
      { intros x Hx. apply Hfin'; [apply K1; auto|]. apply Hq1; auto. }
      split; cbn [tl]; auto. intros x [<-|Hx].
      + split; [apply Hsrc; eapply Hxs; eauto|]. left. apply Hfin'; [eapply Hxs; eauto|].
        intros ->. rewrite EX, EYY in Eh. cbn in Eh. rewrite N.eqb_refl in Eh. discriminate.
      + split; [apply Hsrc; apply K1; auto|]. left. auto. }
  destruct T as [T1 T2].
  assert (Tall : k <> KCommit -> forall x, In x (nonbottom (cx u1)) -> src' x /\ fin' x).
  { intros Hnk x Hx. destruct (T1 x Hx) as [? [|(-> & _ & Hcl)]]; auto. exfalso. auto. }
  assert (Hchain : chain_ok (ar_x b)) by (rewrite TX; repeat split; auto).
  assert (Hmk : forall u2 c, ule_wf u2 -> ar_w c <> [] -> ar_x c = Y -> length (ar_l c) = length Y ->
            (k = KCommit \/ cx u2 = cx u1) -> (k = KCommit -> stack_ok src' fin' clos' u2) -> rel1 S u2 c ->
            crow S gone' src' fin' clos' u2 c).
  { intros u2 c Wu2 Hwc Hxc Hlc Hor Hst Hr. constructor; auto; rewrite ?Hxc, ?Hlc; auto.
    - intros x X E. assert (E2 : x :: X = q :: Y0) by congruence. injection E2 as -> _. auto.
    - destruct Hor as [Hkc|Ecx]; [auto|]. rewrite <- (andb_true_r true) in *.
      assert (Hkd : k = KCommit \/ k <> KCommit) by (destruct k; (left; reflexivity) || (right; discriminate)).
      destruct Hkd as [Hkc|Hnk]; [auto|]. unfold stack_ok. rewrite Ecx. split.
      + intros x Hx. destruct (Tall Hnk x Hx). auto.
      + auto. }
  unfold msg_modify_ule. cbn [um_xids um_type].
  assert (Hlt : (length Y <? MAX_TRANSACTION_RECORDS)%nat = true).
  { apply Nat.ltb_lt. unfold MAX_TRANSACTION_RECORDS. lia. }
  rewrite Hlt.
  assert (Hnopt : is_optimize t = false) by (destruct k; inversion Hk; subst; reflexivity).
  rewrite Hnopt, E1.
  pose proof (cur_ok S HS gone u1 b W1 TW Hlb (or_introl R1)) as (i & Hi & Ei).
  assert (Hput : forall r, r <> XPlace -> xr_ok r -> exists u2,
      (do u3 <- ule_prepare_for_new_uxr u1 Y;
       ule_push u3 (xids_innermost Y =? TXNID_NONE) (xids_innermost Y) r) = Some u2
      /\ rel1 S u2 (aput r b) /\ cx u2 = cx u1 /\ room 253 u2 /\ ule_wf u2).
  { intros r Hr Hrok. destruct (aput_ok S gone u1 b r W1 TW Hlb R1 Hchain Hr1 Hr) as (u2 & E2 & R2 & Hcx & Hr2).
    rewrite TX in E2. exists u2. refine (conj E2 (conj R2 (conj Hcx (conj Hr2 _)))).
    destruct (ule_prepare_for_new_uxr u1 Y) as [u3|] eqn:E3; [|discriminate].
    eapply put_wf; [exact W1|exact HYo|congruence|exact Hr|exact Hrok|exact E3|exact E2]. }
  destruct k as [v|v| | | | |f]; inversion Hk; subst t; cbn [kind_small] in Hsm.
  - (* insert *)
    destruct (Hput (XIns v)) as (u2 & E2 & R2 & Hcx & Hr2 & W2); [discriminate|exact Hsm|].
    unfold ule_apply_insert. rewrite Hi. apply N.ltb_lt in Hsm. rewrite Hsm.
    destruct (ule_prepare_for_new_uxr u1 Y) as [u3|] eqn:E3; [|discriminate]. rewrite E2.
    do 2 eexists. split; [reflexivity|]. split; [|auto]. unfold astep. cbn [rm_kind rm_xids]. fold b.
    apply Hmk; auto; try discriminate. cbn [aput ar_l]. rewrite setlast_len; auto.
    intros E. rewrite E in TL. cbn in TL. destruct Y; [congruence|discriminate].
  - (* insert no overwrite *)
    unfold ule_apply_insert_no_overwrite. rewrite Hi. pose proof Hsm as Hsm'. apply N.ltb_lt in Hsm'. rewrite Hsm'.
    rewrite Ei. unfold astep. cbn [rm_kind rm_xids]. fold b. destruct (is_ins (cur b)).
    + do 2 eexists. split; [reflexivity|]. split; [|unfold room in *; lia]. apply Hmk; auto; discriminate.
    + destruct (Hput (XIns v)) as (u2 & E2 & R2 & Hcx & Hr2 & W2); [discriminate|exact Hsm|].
      destruct (ule_prepare_for_new_uxr u1 Y) as [u3|] eqn:E3; [|discriminate]. rewrite E2.
      do 2 eexists. split; [reflexivity|]. split; [|auto].
      apply Hmk; auto; try discriminate. cbn [aput ar_l]. rewrite setlast_len; auto.
      intros E. rewrite E in TL. cbn in TL. destruct Y; [congruence|discriminate].
  - (* delete *)
    destruct (Hput XDel) as (u2 & E2 & R2 & Hcx & Hr2 & W2); [discriminate|exact I|].
    unfold ule_apply_delete. rewrite Hi.
    destruct (ule_prepare_for_new_uxr u1 Y) as [u3|] eqn:E3; [|discriminate]. rewrite E2.
    do 2 eexists. split; [reflexivity|]. split; [|auto]. unfold astep. cbn [rm_kind rm_xids]. fold b.
    apply Hmk; auto; try discriminate. cbn [aput ar_l]. rewrite setlast_len; auto.
    intros E. rewrite E in TL. cbn in TL. destruct Y; [congruence|discriminate].
  - (* abort *)
    destruct (aabort_ok S gone u1 b W1 TW Hlb R1 Hchain Hr1) as (u2 & z & E2 & R2 & Hcx & Hr2).
    rewrite TX in E2. rewrite E2.
    do 2 eexists. split; [reflexivity|]. split; [|auto]. unfold astep. cbn [rm_kind rm_xids]. fold b.
    apply Hmk; auto; try discriminate.
    + eapply abort_wf; eauto.
    + cbn [aput ar_l]. rewrite setlast_len; auto.
      intros E. rewrite E in TL. cbn in TL. destruct Y; [congruence|discriminate].
  - (* commit *)
    destruct (Hcom eq_refl) as [Hcq EY].
    assert (Hq0 : q <> TXNID_NONE).
    { unfold xids_ok in HYo. rewrite EY in HYo. inversion HYo; subst. tauto. }
    destruct (acommit_ok S gone u1 b q W1 TW Hlb R1) as (E2 & R2 & Hr2); auto; [congruence|].
    rewrite TX in E2. rewrite E2.
    do 2 eexists. split; [reflexivity|]. split; [|auto]. unfold astep. cbn [rm_kind rm_xids]. fold b.
    rewrite TX, EY. cbn [length repeat]. apply Hmk; auto.
    + apply pushed_wf; auto. unfold room in *; lia.
    + apply full_nonempty. auto.
    + rewrite EY. reflexivity.
    + intros _. destruct (px u1) as [|o p] eqn:Ep.
      * rewrite pushed_nil by auto. split; auto. intros x Hx. destruct (T1 x Hx) as [? [|(-> & ? & ?)]]; auto.
      * destruct (nonbottom_pushed u1 b S o p R1 (wf_nonempty _ W1) Ep) as (x0 & X0 & EX & En).
        unfold stack_ok. rewrite En. rewrite TX, EY in EX. injection EX as <- _. rewrite pushed_px.
        assert (Hall : forall x, In x (nonbottom (cx u1)) -> fin' x).
        { intros x Hx. destruct (T1 x Hx) as [_ [|(_ & Hn & _)]]; [auto|congruence]. }
        split; [|cbn [tl]; auto]. intros x [<-|Hx]; [auto|]. split; [apply T1; auto|left; auto].
Qed.

(** On a row that is not stored, deletes, aborts and commits do nothing. *)
Lemma init_rel_inv b : rel1 S ule_init_empty b -> length (ar_x b) = length (ar_l b) ->
  (forall l, In l (ar_l b) -> is_ins l = false)
  /\ (forall f, S f -> accepted_committed f (ar_w b) = Some XDel).
Proof.
  intros (LA & Hl & Hp & Hs & HD) Hlen. cbn [px cx ule_init_empty] in *.
  assert (HsL : strip LA = []).
  { destruct (strip LA) eqn:E; auto. destruct (ar_x b); [destruct LA; discriminate|discriminate]. }
  assert (Hpl : forall l, In l LA -> is_ins l = false).
  { destruct (strip_split LA) as (n & E). rewrite HsL in E. cbn in E. intros l Hi. rewrite E in Hi.
    apply repeat_spec in Hi. subst. reflexivity. }
  split.
  - destruct HD as [<-|[HD _]]; [auto|]. eapply drel_noins; eauto.
  - intros f Hf. rewrite <- Hs by auto. reflexivity.
Qed.

Lemma init_rel w X L : (forall l, In l L -> is_ins l = false) -> length X = length L ->
  (forall f, S f -> accepted_committed f w = Some XDel) -> rel1 S ule_init_empty (mkARow w X L).
Proof.
  intros HL Hlen Hd. exists (repeat XPlace (length L)). cbn [ar_x ar_w ar_l px cx ule_init_empty].
  rewrite repeat_length, strip_repeat. repeat split; auto.
  - destruct X; reflexivity.
  - intros f Hf. rewrite Hd by auto. reflexivity.
  - right. split; auto. apply drel_places. auto.
Qed.

Lemma none_ok a Y q k : crow S gone src fin clos ule_init_empty a ->
  k = KDel \/ k = KAbort \/ k = KCommit -> chain_ok Y -> hd_eq [q] Y = true -> src' q ->
  (forall x, gone x -> x <> q) ->
  crow S gone' src' fin' clos' ule_init_empty (astep a (mkRmsg k Y)).
Proof.
  intros C Hk HY Hq Hsq Hgone. destruct HY as (HYn & HYd & HYo & HYm).
  destruct Y as [|q' Y0] eqn:EYY; [congruence|]. cbn in Hq. apply N.eqb_eq in Hq. subst q'. rewrite <- EYY in *.
  pose proof (cr_wf _ _ _ _ _ _ _ C) as W. pose proof (cr_w _ _ _ _ _ _ _ C) as Hw.
  pose proof (cr_len _ _ _ _ _ _ _ C) as Hlen. pose proof (cr_max _ _ _ _ _ _ _ C) as Hmax.
  pose proof (cr_rel _ _ _ _ _ _ _ C) as Hrel.
  destruct (turn_ok S gone ule_init_empty a Y W Hw Hlen Hmax Hrel HYn) as (u1 & E1 & R1 & _).
  { intros x X EX Hg. cbn. rewrite EYY. apply N.eqb_neq. apply Hgone; auto. }
  { apply init_room. }
  cbn in E1. injection E1 as <-.
  destruct (turn_fields Y a) as [TX TL]. specialize (TL Hlen). pose proof (turn_w Y a Hw) as TW.
  set (b := turn Y a) in *.
  assert (Hlb : length (ar_x b) = length (ar_l b)) by (rewrite TX; auto).
  destruct (init_rel_inv b R1 Hlb) as [Hno Hdel].
  assert (Hne : ar_l b <> []) by (intros E; rewrite E in TL; cbn in TL; destruct Y; [congruence|discriminate]).
  assert (Hmk : forall w X L, w <> [] -> X = Y -> length L = length Y -> (forall l, In l L -> is_ins l = false) ->
     (forall f, S f -> accepted_committed f w = Some XDel) ->
     crow S gone' src' fin' clos' ule_init_empty (mkARow w X L)).
  { intros w X L Hw' -> HL Hn Hd. constructor; cbn [ar_w ar_x ar_l]; auto.
    - intros x X E. assert (E2 : x :: X = q :: Y0) by congruence. injection E2 as -> _. auto.
    - split; intros x [].
    - left. apply init_rel; auto. }
  assert (Hset : forall r, is_ins r = false -> forall l, In l (setlast (ar_l b) r) -> is_ins l = false).
  { intros r Hr l Hl. unfold setlast in Hl. apply in_app_iff in Hl. destruct Hl as [Hl|[<-|[]]]; auto.
    apply Hno. destruct (snoc_of _ Hne) as (L0 & l0 & E). rewrite E in *. rewrite removelast_last in Hl.
    apply in_or_app. auto. }
  unfold astep. cbn [rm_kind rm_xids]. fold b.
  destruct Hk as [->|[->| ->]].
  - apply Hmk; auto; [rewrite setlast_len; auto|apply Hset; reflexivity].
  - apply Hmk; auto; [rewrite setlast_len; auto|apply Hset; reflexivity].
  - apply Hmk; auto.
    + apply full_nonempty; auto.
    + rewrite TX. apply repeat_length.
    + intros l Hl. apply repeat_spec in Hl. subst. reflexivity.
    + intros f Hf. unfold full. rewrite TX, EYY.
      assert (Hln : is_ins (lastnp (ar_l b)) = false).
      { clear - Hno. induction (ar_l b) as [|l L IH]; auto. cbn.
        assert (Hl : is_ins l = false) by (apply Hno; left; auto).
        assert (HL : is_ins (lastnp L) = false) by (apply IH; intros; apply Hno; right; auto).
        destruct (lastnp L); auto. }
      destruct (lastnp (ar_l b)); [discriminate| |auto]. rewrite acc_cons by auto. cbn [ux_xid ux_xr].
      rewrite Hdel by auto. destruct (f q); auto.
Qed.
End Msg.

Section Post.
Context (S : (txnid -> bool) -> Prop) (HS : S (fun _ => true)).
Context (gone src fin clos : txnid -> Prop).
Let CR := crow S gone src fin clos.

Lemma pushed_crow u a : CR u a -> room 1 u -> px u <> [] ->
  (forall x X, ar_x a = x :: X -> gone x /\ clos x) -> CR (pushed u) a.
Proof.
  intros C Hr Hp Hg. pose proof (cr_wf _ _ _ _ _ _ _ C) as W. pose proof (cr_w _ _ _ _ _ _ _ C) as Hw.
  pose proof (cr_len _ _ _ _ _ _ _ C) as Hlen. destruct (cr_stack _ _ _ _ _ _ _ C) as [K1 K2].
  pose proof (cr_src _ _ _ _ _ _ _ C) as Hxs.
  assert (R1 : rel1 S u a) by (destruct (cr_rel _ _ _ _ _ _ _ C) as [|(Hpn & _)]; [auto|congruence]).
  destruct (px u) as [|o p] eqn:Ep; [congruence|].
  destruct (nonbottom_pushed u a S o p R1 (wf_nonempty _ W) Ep) as (x & X & EX & En).
  destruct (Hg x X EX) as [Hgx Hcx]. constructor; auto.
  - apply pushed_wf; auto.
  - apply (cr_max _ _ _ _ _ _ _ C).
  - unfold stack_ok. rewrite En, pushed_px. cbn [tl].
    assert (Hall : forall y, In y (nonbottom (cx u)) -> fin y).
    { intros y Hy. destruct (K1 y Hy) as [_ [|[Hn _]]]; [auto|congruence]. }
    split; auto. intros y [<-|Hy]; [|split; [apply K1; auto|auto]]. split; [eapply Hxs; eauto|auto].
  - right. split; [apply pushed_px|]. split; [eauto|]. apply rel1_pushed; auto.
Qed.

(** Collecting the committed part. *)
Lemma collect_crow u a u' : CR u a -> ule_wf u' -> px u' = px u ->
  (forall x, In x (nonbottom (cx u')) -> In x (nonbottom (cx u))) ->
  (forall x, In x (tl (nonbottom (cx u'))) -> In x (tl (nonbottom (cx u)))) ->
  (forall f, S f -> accepted_committed f (cx u') = accepted_committed f (cx u)) -> CR u' a.
Proof.
  intros C W' Hp H1 H2 Hacc. destruct (cr_stack _ _ _ _ _ _ _ C) as [K1 K2].
  constructor; auto; try apply C.
  - split; [|auto]. intros x Hx. rewrite Hp. auto.
  - destruct (cr_rel _ _ _ _ _ _ _ C) as [(LA & R1 & R2 & R3 & R4)|(R1 & R2 & R3)]; [left|right].
    + exists LA. rewrite Hp. repeat split; auto. intros f Hf. rewrite Hacc by auto. auto.
    + rewrite <- Hp in R1. repeat split; auto. intros f Hf. rewrite Hacc by auto. auto.
Qed.

(** What the chosen looks at the transaction manager guarantee. *)
Definition promo_ok (e : txnid) : Prop := forall x, src x -> x < e -> gone x /\ clos x.
Definition simple_ok (e : txnid) : Prop := forall x, src x -> x < e -> forall f, S f -> f x = true.
Definition state_ok (g : gc_state) : Prop :=
  exists m h, g = clone_for_gc m /\ cinv m h /\ (forall x, src x -> begun h x /\ wrote h x)
    /\ (forall x, fin x -> finished h x) /\ (forall f, S f -> serves h f).

Lemma try_promote_ok u a e : CR u a -> room 1 u -> promo_ok e ->
  exists u', ule_try_promote_outermost u e = Some u' /\ CR u' a /\ (u' = u \/ u' = pushed u).
Proof.
  intros C Hr He. unfold ule_try_promote_outermost. destruct (px u) as [|o p] eqn:Ep; [exists u; auto|].
  destruct (N.ltb_spec (ux_xid o) e) as [Hlt|]; [|exists u; auto].
  assert (Hp : px u <> []) by congruence. rewrite pushed_promote; auto; [|apply C].
  exists (pushed u). split; auto. split; auto. apply pushed_crow; auto.
  intros x X EX. assert (R1 : rel1 S u a) by (destruct (cr_rel _ _ _ _ _ _ _ C) as [|(Hpn & _)]; [auto|congruence]).
  destruct R1 as (LA & _ & Hpx & _). rewrite Ep in Hpx. symmetry in Hpx.
  destruct (zipx_head _ _ _ _ Hpx) as (x' & X' & EX' & Eo). rewrite EX in EX'. injection EX' as <- _.
  apply He; [apply (cr_src _ _ _ _ _ _ _ C x X); auto|congruence].
Qed.

Lemma gc_crow u a g : CR u a -> state_ok g -> exists u', ule_garbage_collect u g = Some u' /\ CR u' a.
Proof.
  intros C (m & h & -> & Cm & Hs & Hf & HK). pose proof (cr_wf _ _ _ _ _ _ _ C) as W.
  destruct (cr_stack _ _ _ _ _ _ _ C) as [K1 K2].
  destruct (ule_gc_ok m h u Cm (wf_nonempty _ W)) as (u' & E & Hp & Hcap & Hc & H1 & H2 & Hl & Hacc).
  { split; intros x Hx; [apply Hs; apply K1; auto|apply Hf; auto]. }
  exists u'. split; auto. eapply collect_crow; eauto. eapply gc_wf; eauto.
Qed.

Lemma simple_crow u a e : CR u a -> simple_ok e -> CR (ule_simple_gc u true e) a.
Proof.
  intros C He. pose proof (cr_wf _ _ _ _ _ _ _ C) as W. destruct (cr_stack _ _ _ _ _ _ _ C) as [K1 K2].
  destruct (simple_gc_ok (fun x => src x /\ x < e) u e (wf_nonempty _ W)) as (Hp & Hcap & Hc & H1 & H2 & Hl & Hacc).
  { intros x Hx Hlt. split; auto. apply K1. auto. }
  eapply collect_crow; eauto.
  - apply simple_gc_wf. auto.
  - intros f Hf. apply Hacc. intros x [Hx Hlt]. eapply He; eauto.
Qed.

Lemma memsize_some u : (1 < length (cx u))%nat -> exists n, ule_packed_memsize u = Some n.
Proof.
  unfold ule_packed_memsize, le_memsize_from_ule, ule_innermost. intros H.
  destruct (cx u) as [|a [|b c]]; cbn in H; try lia.
  destruct (px u); cbn [is_nil]; eauto.
Qed.

Lemma post_ok u a gi : CR u a -> room 1 u -> gi_mvcc gi = true -> promo_ok (gi_oldest_promo gi) ->
  simple_ok (gi_oldest_simple gi) -> (forall i g, gi_state gi = Some (i, g) -> state_ok g) ->
  exists u', ule_post_process u gi = Some u' /\ CR u' a.
Proof.
  intros C Hr Hm Hpr Hsi Hst. unfold ule_post_process.
  destruct (try_promote_ok u a _ C Hr Hpr) as (u1 & -> & C1 & _). cbv zeta. rewrite Hm.
  pose proof (simple_crow u1 a _ C1 Hsi) as C2. set (u2 := ule_simple_gc _ _ _) in *.
  destruct (gi_state gi) as [[i g]|] eqn:Eg; [|eauto]. specialize (Hst i g eq_refl).
  destruct (Nat.ltb_spec 1 (length (cx u2))) as [Hl|]; [|eauto].
  destruct (gc_crow u2 a g C2 Hst) as (u3 & E3 & C3).
  destruct (i || _); [eauto|]. destruct (memsize_some u2 Hl) as (n & ->). destruct (_ <=? n); eauto.
Qed.

Lemma strip_noins X L : length X = length L -> (forall r, In r (zipx X (strip L)) -> is_ins (ux_xr r) = false) ->
  forall l, In l L -> is_ins l = false.
Proof.
  intros Hl Hn l Hi. destruct (strip_split L) as (n & E). rewrite E in Hi. apply in_app_iff in Hi.
  destruct Hi as [Hi|Hi]; [|apply repeat_spec in Hi; subst; reflexivity].
  rewrite <- (zipx_xrs X (strip L)) in Hi by (pose proof (strip_len L); lia).
  apply in_map_iff in Hi. destruct Hi as (r & <- & Hr). auto.
Qed.

Lemma pack_ok u a : CR u a -> exists r, le_pack_check u = Some r /\ crowo S gone src fin clos r a.
Proof.
  intros C. pose proof (cr_wf _ _ _ _ _ _ _ C) as W. unfold le_pack_check.
  pose proof (wf_nonempty u W) as Hc. destruct (cx u) as [|c cs] eqn:Ec; [congruence|]. rewrite <- Ec in *.
  destruct (wf_bottom _ W) as (l & b & Eb). assert (El : last (cx u) c = mkUxr TXNID_NONE b).
  { rewrite Eb. apply last_last. }
  rewrite El. cbn [ux_xid]. rewrite N.eqb_refl. destruct (has_insert u) eqn:Eh.
  - assert (Hn : (length (px u) <? MAX_TRANSACTION_RECORDS)%nat = true) by (apply Nat.ltb_lt; apply W).
    rewrite Hn. exists (Some u). auto.
  - exists None. split; auto. unfold has_insert in Eh. apply orb_false_iff in Eh. destruct Eh as [E1 E2].
    assert (Hn1 : forall r, In r (cx u) -> is_ins (ux_xr r) = false).
    { intros r Hr. destruct (is_ins (ux_xr r)) eqn:E; auto. rewrite <- E1. symmetry. apply existsb_exists. eauto. }
    assert (Hn2 : forall r, In r (px u) -> is_ins (ux_xr r) = false).
    { intros r Hr. destruct (is_ins (ux_xr r)) eqn:E; auto. rewrite <- E2. symmetry. apply existsb_exists. eauto. }
    assert (Hdel : forall f, accepted_committed f (cx u) = Some XDel).
    { intros f. destruct (acc_some f (cx u) Hc) as (v & Ev). rewrite Ev. f_equal.
      apply acc_in in Ev. destruct Ev as (r & Hr & <-). pose proof (Hn1 r Hr) as Hni.
      pose proof (wf_c _ W) as Wc. rewrite Forall_forall in Wc. specialize (Wc r Hr).
      destruct (ux_xr r); [discriminate|auto|tauto]. }
    cbn [crowo]. pose proof (cr_len _ _ _ _ _ _ _ C) as Hlen.
    constructor; try apply C; [apply init_wf|split; intros x []|].
    destruct (cr_rel _ _ _ _ _ _ _ C) as [(LA & R1 & R2 & R3 & R4)|(R1 & R2 & R3)]; [left|right].
    + destruct a as [w X L]. cbn [ar_x ar_w ar_l] in *. apply init_rel; auto.
      * assert (HLA : forall l, In l LA -> is_ins l = false).
        { apply (strip_noins X LA); auto. rewrite <- R2. auto. }
        destruct R4 as [<-|[R4 _]]; [auto|]. eapply drel_noins; eauto.
      * intros f Hf. rewrite <- R3 by auto. auto.
    + split; [reflexivity|]. split; auto. intros f Hf. rewrite <- R3, Hdel by auto. reflexivity.
Qed.
End Post.
