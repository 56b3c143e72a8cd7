(** A row as an ideal stack: committed writes, newest first, and the levels of
    the last transaction that sent a message.  Messages act on it at once, nothing
    is collected.  Every copy of the leaf entry agrees with it. *)
From Verif Require Import Base Bytes UleModel UleSpec LeCodecProofs LeAccProofs UleWf
  MgrModel MgrSpec MgrProofs MvccModel StackProofs MvccGc.
Open Scope N_scope.

Record arow := mkARow { ar_w : list uxr; ar_x : xids; ar_l : list xr }.

Definition arow_init : arow := mkARow [mkUxr TXNID_NONE XDel] [] [].

(** With the provisional value on top of the committed ones. *)
Definition full (a : arow) : list uxr :=
  match ar_x a with
  | [] => ar_w a
  | x :: _ => match lastnp (ar_l a) with XPlace => ar_w a | v => mkUxr x v :: ar_w a end
  end.

(** A transaction with chain [Y] takes its turn. *)
Definition turn (Y : xids) (a : arow) : arow :=
  if hd_eq (ar_x a) Y then mkARow (ar_w a) Y (relevel (ar_x a) Y (ar_l a))
  else mkARow (full a) Y (repeat XPlace (length Y)).

Definition resv (b : xr) (L : list xr) : xr := match lastnp L with XPlace => b | v => v end.
Definition whead (w : list uxr) : xr := ux_xr (hd dummy w).
Definition cur (a : arow) : xr := resv (whead (ar_w a)) (ar_l a).
Definition xval (r : xr) : option val := match r with XIns v => Some v | _ => None end.

Definition aput (r : xr) (a : arow) : arow := mkARow (ar_w a) (ar_x a) (setlast (ar_l a) r).

Definition astep (a : arow) (m : rmsg) : arow :=
  let b := turn (rm_xids m) a in
  match rm_kind m with
  | KOpt => a
  | KIns v => aput (XIns v) b
  | KInsNo v => if is_ins (cur b) then b else aput (XIns v) b
  | KDel => aput XDel b
  | KAbort => aput XPlace b
  | KCommit => mkARow (full b) (ar_x b) (repeat XPlace (length (ar_x b)))
  | KUpd f => match f (xval (cur a)) with
              | None => a
              | Some (Some w) => aput (XIns w) b
              | Some None => aput XDel b
              end
  end.

(** ** Ghost deletes *)

(** A dropped entry forgets deletes written over nothing: [LA] may have no record
    where [L] has a delete that changes nothing.  [b] is the value below. *)
Inductive drel : xr -> list xr -> list xr -> Prop :=
| dr_nil b : drel b [] []
| dr_same b v LA L : drel (match v with XPlace => b | _ => v end) LA L -> drel b (v :: LA) (v :: L)
| dr_ghost LA L : drel XDel LA L -> drel XDel (XPlace :: LA) (XDel :: L).

Lemma drel_len b LA L : drel b LA L -> length LA = length L.
Proof. induction 1; cbn; auto. Qed.

Lemma drel_refl b L : drel b L L.
Proof. revert b. induction L; intros b; constructor; auto. Qed.

Lemma drel_lastnp b LA L : drel b LA L ->
  lastnp LA = lastnp L \/ (lastnp LA = XPlace /\ lastnp L = XDel /\ b = XDel).
Proof.
  induction 1 as [b|b v LA L H [E|(E1 & E2 & E3)]|LA L H [E|(E1 & E2 & E3)]]; cbn; auto.
  - rewrite E. auto.
  - rewrite E1, E2. destruct v; try discriminate E3; auto.
  - rewrite E. destruct (lastnp L); auto.
  - rewrite E1, E2. auto.
Qed.

Lemma drel_resv LA L : drel XDel LA L -> resv XDel LA = resv XDel L.
Proof.
  intros H. apply drel_lastnp in H. unfold resv. destruct H as [->|(-> & -> & _)]; auto.
Qed.

Lemma drel_app b LA L r : drel b LA L -> drel b (LA ++ [r]) (L ++ [r]).
Proof. induction 1; cbn; try (constructor; auto; fail). apply drel_refl. Qed.

Lemma drel_inv_app b LA x L y : drel b (LA ++ [x]) (L ++ [y]) -> drel b LA L.
Proof.
  revert b L. induction LA as [|l LA IH]; intros b [|l2 L] H; cbn in *.
  - constructor.
  - apply drel_len in H. cbn in H. rewrite app_length in H. cbn in H. lia.
  - apply drel_len in H. cbn in H. rewrite app_length in H. cbn in H. lia.
  - inversion H; subst; constructor; eapply IH; eauto.
Qed.

Lemma drel_relevel X : forall Y b LA L, length X = length L -> drel b LA L ->
  drel b (relevel X Y LA) (relevel X Y L).
Proof.
  induction X as [|x X IH]; intros [|y Y] b LA L Hl H; try (cbn; apply drel_refl).
  pose proof (drel_len _ _ _ H) as Hl2. destruct LA as [|la LA], L as [|l L]; try discriminate.
  cbn [relevel]. destruct (hd_eq X Y).
  - inversion H; subst; constructor; apply IH; auto.
  - apply drel_lastnp in H. destruct H as [->|(-> & -> & ->)].
    + apply drel_refl.
    + apply dr_ghost. apply drel_refl.
Qed.

Lemma drel_places L : (forall l, In l L -> is_ins l = false) -> drel XDel (repeat XPlace (length L)) L.
Proof.
  induction L as [|l L IH]; intros H; cbn; [constructor|].
  assert (Hl : is_ins l = false) by (apply H; left; auto).
  destruct l; [discriminate|apply dr_ghost|apply dr_same]; apply IH; intros; apply H; right; auto.
Qed.

Lemma drel_noins b LA L : drel b LA L -> (forall l, In l LA -> is_ins l = false) ->
  forall l, In l L -> is_ins l = false.
Proof.
  induction 1 as [|b v LA L H IH|LA L H IH]; intros Hn l Hi; [destruct Hi| |].
  - destruct Hi as [<-|Hi]; [apply Hn; left; auto|]. apply IH; auto. intros; apply Hn; right; auto.
  - destruct Hi as [<-|Hi]; [reflexivity|]. apply IH; auto. intros; apply Hn; right; auto.
Qed.

Lemma setlast_len L r : L <> [] -> length (setlast L r) = length L.
Proof. intros H. destruct (exists_last H) as (l & a & ->). unfold setlast. rewrite removelast_last, !app_length. auto. Qed.

Lemma setlast_snoc L x r : setlast (L ++ [x]) r = L ++ [r].
Proof. unfold setlast. rewrite removelast_last. auto. Qed.

(** * Copies *)

Section Env.
(** The readers to serve; transactions that are over and send nothing any more;
    senders of the messages absorbed; those finished when the last of these was
    sent; those that send only commits from now on. *)
Context (S : (txnid -> bool) -> Prop) (gone src fin clos : txnid -> Prop).

Definition same_reads (c w : list uxr) : Prop :=
  forall f, S f -> accepted_committed f c = accepted_committed f w.

(** The provisional part is that of the ideal row. *)
Definition rel1 (u : ule) (a : arow) : Prop :=
  exists LA, length LA = length (ar_x a) /\ px u = zipx (ar_x a) (strip LA)
    /\ same_reads (cx u) (ar_w a)
    /\ (LA = ar_l a
        \/ (drel XDel LA (ar_l a) /\ forall f, S f -> accepted_committed f (ar_w a) = Some XDel)).

(** The provisional part has been promoted ahead of the ideal row. *)
Definition rel2 (u : ule) (a : arow) : Prop :=
  px u = [] /\ (exists x X, ar_x a = x :: X /\ gone x) /\ same_reads (cx u) (full a).

Definition stack_ok (u : ule) : Prop :=
  (forall x, In x (nonbottom (cx u)) -> src x /\ (fin x \/ (px u = [] /\ clos x)))
  /\ (forall x, In x (tl (nonbottom (cx u))) -> fin x).

Record crow (u : ule) (a : arow) : Prop := {
  cr_wf : ule_wf u;
  cr_w : ar_w a <> [];
  cr_len : length (ar_x a) = length (ar_l a);
  cr_max : (length (ar_x a) <= 253)%nat;
  cr_src : forall x X, ar_x a = x :: X -> src x;
  cr_stack : stack_ok u;
  cr_rel : rel1 u a \/ rel2 u a
}.

Definition crowo (o : option ule) (a : arow) : Prop :=
  match o with None => crow ule_init_empty a | Some u => crow u a end.
End Env.

Definition chain_ok (Y : xids) : Prop :=
  Y <> [] /\ NoDup Y /\ xids_ok Y /\ (length Y <= 253)%nat.

Lemma wf_nonempty u : ule_wf u -> cx u <> [].
Proof. intros W. apply pre_cx. apply wf_pre. auto. Qed.

Lemma wf_head u : ule_wf u -> whead (cx u) <> XPlace.
Proof.
  intros W. pose proof (wf_nonempty u W). destruct W as [Wc _ _ _ _]. unfold whead.
  destruct (cx u); [congruence|]. inversion Wc; subst. cbn. tauto.
Qed.

Lemma wf_lastv u : ule_wf u -> px u <> [] -> lastv (px u) <> XPlace.
Proof. intros W H. apply (wf_inner _ W). Qed.

Definition pushed (u : ule) : ule :=
  match px u with
  | [] => u
  | o :: _ => mkUle (mkUxr (ux_xid o) (lastv (px u)) :: cx u) [] (ucap u)
  end.

Lemma pushed_promote u : ule_wf u -> px u <> [] -> room 1 u -> ule_promote_to_committed u = Some (pushed u).
Proof.
  intros W Hp Hr. unfold pushed. destruct (px u) as [|o p] eqn:E; [congruence|].
  rewrite <- E. apply (promote_ok u o p); auto; [apply wf_nonempty; auto|apply wf_lastv; auto; congruence].
Qed.

Lemma pushed_room u j : room (Datatypes.S j) u -> room j (pushed u).
Proof. unfold room, pushed. destruct (px u); cbn; lia. Qed.

Lemma pushed_px u : px (pushed u) = [].
Proof. unfold pushed. destruct (px u) eqn:E; auto. Qed.

Section Steps.
Context (S : (txnid -> bool) -> Prop) (HS : S (fun _ => true)).
Context (gone : txnid -> Prop).

Lemma same_head c w : same_reads S c w -> c <> [] -> w <> [] -> whead c = whead w.
Proof.
  intros H Hc Hw. specialize (H _ HS). rewrite !acc_all in H. unfold whead.
  destruct c, w; try congruence. cbn. congruence.
Qed.

Lemma same_push c w r : same_reads S c w -> c <> [] -> w <> [] -> same_reads S (r :: c) (r :: w).
Proof. intros H Hc Hw f Hf. rewrite !acc_cons by auto. rewrite H; auto. Qed.


Lemma zipx_head X L o p : zipx X (strip L) = o :: p -> exists x X', X = x :: X' /\ ux_xid o = x.
Proof. destruct X, (strip L); cbn; try discriminate. intros [= <- _]. eauto. Qed.

Lemma rel1_pushed u a : ule_wf u -> ar_w a <> [] -> length (ar_x a) = length (ar_l a) -> rel1 S u a ->
  same_reads S (cx (pushed u)) (full a).
Proof.
  intros W Hw Hlen (LA & Hl & Hp & Hs & HD). pose proof (wf_nonempty u W) as Hc.
  unfold pushed, full. destruct (px u) as [|o p] eqn:Ep.
  - (* nothing provisional *)
    assert (HsL : strip LA = []).
    { destruct (strip LA) eqn:E; auto. exfalso. destruct (ar_x a); [destruct LA; discriminate|].
      discriminate Hp. }
    destruct (ar_x a) as [|x X] eqn:EX; [auto|].
    destruct HD as [->|[HD Hdel]].
    + apply strip_nil in HsL. rewrite HsL. auto.
    + apply strip_nil in HsL. apply drel_lastnp in HD. rewrite HsL in HD.
      destruct HD as [<-|(_ & -> & _)]; [auto|].
      intros f Hf. rewrite acc_cons by auto. cbn [ux_xid ux_xr]. rewrite Hs, Hdel by auto.
      destruct (f x); auto.
  - rewrite Hp. symmetry in Hp. destruct (zipx_head _ _ _ _ Hp) as (x & X & EX & ->). rewrite EX.
    cbn [cx]. rewrite <- EX.
    assert (HsL : strip LA <> []) by (intros E; rewrite E in Hp; destruct (ar_x a); discriminate).
    rewrite (lastv_zipx (ar_x a) LA) by auto.
    assert (Hn : lastnp LA <> XPlace) by (intros E; apply strip_nil in E; auto).
    assert (E : lastnp (ar_l a) = lastnp LA).
    { destruct HD as [->|[HD _]]; auto. apply drel_lastnp in HD. destruct HD as [|(E & _)]; congruence. }
    rewrite E. destruct (lastnp LA) eqn:El; try congruence; apply same_push; auto.
Qed.

(** ** Taking turns *)

Lemma zip_len_px u a : rel1 S u a -> (length (px u) <= length (ar_x a))%nat.
Proof.
  intros (LA & Hl & -> & _). pose proof (strip_len LA). rewrite zipx_len by lia. lia.
Qed.

Lemma turn_fields Y a : ar_x (turn Y a) = Y
  /\ (length (ar_x a) = length (ar_l a) -> length (ar_l (turn Y a)) = length Y).
Proof.
  unfold turn. destruct (hd_eq _ _); cbn; split; auto; intros; [apply relevel_len; auto|apply repeat_length].
Qed.

Lemma full_nonempty a : ar_w a <> [] -> full a <> [].
Proof. unfold full. destruct (ar_x a), (lastnp (ar_l a)); auto; discriminate. Qed.

Lemma turn_w Y a : ar_w a <> [] -> ar_w (turn Y a) <> [].
Proof. unfold turn. destruct (hd_eq _ _); cbn; auto. apply full_nonempty. Qed.

Lemma rel1_places u Y w : px u = [] -> same_reads S (cx u) w ->
  rel1 S u (mkARow w Y (repeat XPlace (length Y))).
Proof.
  intros Hp Hs. exists (repeat XPlace (length Y)). cbn. rewrite repeat_length, strip_repeat, Hp.
  repeat split; auto. destruct Y; reflexivity.
Qed.

(** The implicit promotions keep the copy in step.  Nothing or the outermost
    provisional transaction is pushed. *)
Lemma turn_ok u a Y : ule_wf u -> ar_w a <> [] -> length (ar_x a) = length (ar_l a) ->
  (length (ar_x a) <= 253)%nat ->
  rel1 S u a \/ rel2 S gone u a -> Y <> [] ->
  (forall x X, ar_x a = x :: X -> gone x -> hd_eq [x] Y = false) -> room 255 u ->
  exists u1, ule_do_implicit_promotions u Y = Some u1 /\ rel1 S u1 (turn Y a) /\ room 254 u1
    /\ ((cx u1 = cx u /\ (px u = [] -> px u1 = []))
        \/ (px u <> [] /\ u1 = pushed u /\ hd_eq (ar_x a) Y = false)).
Proof.
  intros W Hw Hlen Hmax Hrel HY Hgone Hroom. pose proof (wf_nonempty u W) as Hc.
  assert (Hr254 : room 254 u) by (unfold room in *; lia).
  destruct Hrel as [R1|(Hp & (x & X & EX & Hg) & Hs)].
  - pose proof (rel1_pushed u a W Hw Hlen R1) as Hpush.
    pose proof (zip_len_px u a R1) as Hpl.
    rewrite (implicit_ok u Y Hc (wf_lastv u W) HY ltac:(unfold MAX_TRANSACTION_RECORDS; lia) Hr254).
    destruct (px u) as [|o p] eqn:Ep.
    + exists u. split; [reflexivity|]. split; [|split; [auto|left; auto]].
      unfold turn. destruct (hd_eq (ar_x a) Y) eqn:Eh.
      * destruct R1 as (LA & Hl & Hp & Hs & HD). exists (relevel (ar_x a) Y LA). cbn [ar_x ar_w ar_l].
        rewrite relevel_len by auto. split; auto. split.
        -- rewrite <- norm_levels by auto. rewrite <- Hp, Ep. reflexivity.
        -- split; auto. destruct HD as [->|[HD Hd]]; [left; auto|]. right. split; auto. apply drel_relevel; auto.
      * apply rel1_places; auto. unfold pushed in Hpush. rewrite Ep in Hpush. auto.
    + rewrite <- Ep in *. assert (Hpn : px u <> []) by (rewrite Ep; discriminate).
      destruct R1 as (LA & Hl & Hp & Hs & HD).
      assert (Eh : hd_eq (map ux_xid (px u)) Y = hd_eq (ar_x a) Y).
      { rewrite Hp in Ep. destruct (zipx_head _ _ _ _ Ep) as (x & X & EX & Eo).
        rewrite Hp, Ep. rewrite EX. cbn [map hd_eq]. rewrite Eo. reflexivity. }
      rewrite Eh. unfold turn. destruct (hd_eq (ar_x a) Y) eqn:Ehe.
      * eexists. split; [reflexivity|]. split; [|split; [exact Hr254|left; cbn; split; [auto|congruence]]].
        exists (relevel (ar_x a) Y LA). cbn [ar_x ar_w ar_l px cx]. rewrite relevel_len by auto.
        split; auto. split; [rewrite Hp; apply norm_levels; auto|].
        split; auto. destruct HD as [->|[HD Hd]]; [left; auto|]. right. split; auto. apply drel_relevel; auto.
      * exists (pushed u). assert (Epu : pushed u = mkUle (mkUxr (ux_xid o) (lastv (px u)) :: cx u) [] (ucap u)).
        { unfold pushed. rewrite Ep. reflexivity. }
        rewrite Epu. split; [reflexivity|]. rewrite <- Epu.
        split; [|split; [apply pushed_room; auto|right; auto]].
        apply rel1_places; auto. apply pushed_px.
  - exists u. unfold ule_do_implicit_promotions. rewrite Hp. cbn [is_nil]. split; [reflexivity|].
    assert (Eh : hd_eq (ar_x a) Y = false).
    { rewrite EX. specialize (Hgone x X EX Hg). destruct Y; [congruence|]. exact Hgone. }
    unfold turn. rewrite Eh. split; [apply rel1_places; auto|]. split; [auto|left; auto].
Qed.

(** The current value. *)
Lemma cur_ok u a : ule_wf u -> ar_w a <> [] -> length (ar_x a) = length (ar_l a) ->
  rel1 S u a \/ rel2 S gone u a ->
  exists i, ule_innermost u = Some i /\ ux_xr i = cur a.
Proof.
  intros W Hw Hlen Hrel. pose proof (wf_nonempty u W) as Hc. destruct Hrel as [(LA & Hl & Hp & Hs & HD)|R2].
  - destruct (innermost_stack u (ar_x a) LA Hc (eq_sym Hl) Hp) as (i & Hi & E). exists i. split; auto.
    rewrite E. change (ux_xr (hd dummy (cx u))) with (whead (cx u)).
    rewrite (same_head _ _ Hs Hc Hw). unfold cur. change (resv (whead (ar_w a)) LA = resv (whead (ar_w a)) (ar_l a)).
    destruct HD as [->|[HD Hdel]]; auto. specialize (Hdel _ HS). rewrite acc_all in Hdel.
    unfold whead. destruct (ar_w a); [congruence|]. cbn [hd]. injection Hdel as ->. apply drel_resv. auto.
  - destruct R2 as (Hp & (x & X & EX & _) & Hs). unfold ule_innermost. destruct (cx u) as [|c cs] eqn:Ec; [congruence|].
    rewrite Hp. exists c. split; auto. rewrite <- Ec in *.
    pose proof (same_head _ _ Hs Hc (full_nonempty a Hw)) as E. unfold whead in E. rewrite Ec in E. cbn [hd] in E.
    rewrite E. unfold cur, resv, full. rewrite EX. destruct (lastnp (ar_l a)); reflexivity.
Qed.

Lemma snoc_of {A} (l : list A) : l <> [] -> exists l' a, l = l' ++ [a].
Proof. intros H. destruct (exists_last H) as (l' & a & E). eauto. Qed.

(** Writing a record. *)
Lemma aput_ok u a r : ule_wf u -> ar_w a <> [] -> length (ar_x a) = length (ar_l a) ->
  rel1 S u a -> chain_ok (ar_x a) -> room 254 u -> r <> XPlace ->
  exists u2, (do u1 <- ule_prepare_for_new_uxr u (ar_x a);
   ule_push u1 (xids_innermost (ar_x a) =? TXNID_NONE) (xids_innermost (ar_x a)) r) = Some u2
   /\ rel1 S u2 (aput r a) /\ cx u2 = cx u /\ room 253 u2.
Proof.
  intros W Hw Hlen (LA & Hl & Hp & Hs & HD) (HX & Hnd & Hok & Hmax) Hroom Hr.
  destruct (snoc_of _ HX) as (X & x & EX).
  assert (HL : LA <> []) by (intros ->; rewrite EX, app_length in Hl; cbn in Hl; lia).
  destruct (snoc_of _ HL) as (L0 & l & EL).
  rewrite EX in Hl, Hmax. rewrite EL in Hl. rewrite !app_length in *. cbn in *.
  rewrite EX in Hnd, Hok |- *.
  assert (Hnx : ~ In x X) by (apply NoDup_remove_2 in Hnd; rewrite app_nil_r in Hnd; auto).
  assert (Hx0 : x <> TXNID_NONE).
  { unfold xids_ok in Hok. rewrite Forall_app in Hok. destruct Hok as [_ Hok]. inversion Hok; subst. tauto. }
  rewrite xids_innermost_snoc.
  rewrite (put_ok u X x L0 l r); auto; try lia.
  2:{ apply wf_nonempty; auto. }
  2:{ rewrite <- EX, <- EL. auto. }
  2:{ unfold room in *. lia. }
  eexists. split; [reflexivity|]. cbn [cx]. split; [|split; [auto|unfold room in *; cbn; lia]].
  exists (L0 ++ [r]). cbn [aput ar_x ar_w ar_l cx px]. rewrite EX. rewrite !app_length. cbn [length].
  split; [lia|]. split; auto. split; auto.
  destruct HD as [HD|[HD Hdel]].
  - left. rewrite <- HD, EL. rewrite setlast_snoc. auto.
  - right. split; auto. pose proof (drel_len _ _ _ HD) as HdL.
    assert (HaL : ar_l a <> []) by (intros E; rewrite E, EL, app_length in HdL; cbn in HdL; lia).
    destruct (snoc_of _ HaL) as (L1 & l1 & EL1). rewrite EL1, setlast_snoc. apply drel_app.
    rewrite EL, EL1 in HD. eapply drel_inv_app; eauto.
Qed.

Lemma aabort_ok u a : ule_wf u -> ar_w a <> [] -> length (ar_x a) = length (ar_l a) ->
  rel1 S u a -> chain_ok (ar_x a) -> room 254 u ->
  exists u2 z, ule_apply_abort u (ar_x a) = Some (u2, z)
   /\ rel1 S u2 (aput XPlace a) /\ cx u2 = cx u /\ room 253 u2.
Proof.
  intros W Hw Hlen (LA & Hl & Hp & Hs & HD) (HX & Hnd & Hok & Hmax) Hroom.
  destruct (snoc_of _ HX) as (X & x & EX).
  assert (HL : LA <> []) by (intros ->; rewrite EX, app_length in Hl; cbn in Hl; lia).
  destruct (snoc_of _ HL) as (L0 & l & EL).
  rewrite EX in Hl, Hmax. rewrite EL in Hl. rewrite !app_length in *. cbn in *.
  rewrite EX in Hnd, Hok |- *.
  assert (Hnx : ~ In x X) by (apply NoDup_remove_2 in Hnd; rewrite app_nil_r in Hnd; auto).
  assert (Hx0 : x <> TXNID_NONE).
  { unfold xids_ok in Hok. rewrite Forall_app in Hok. destruct Hok as [_ Hok]. inversion Hok; subst. tauto. }
  destruct (abort_ok u X x L0 l) as (z & Ez); auto; try lia.
  { apply wf_nonempty; auto. }
  { apply wf_head; auto. }
  { rewrite <- EX, <- EL. auto. }
  rewrite Ez. do 2 eexists. split; [reflexivity|]. cbn [cx]. split; [|split; [auto|unfold room in *; cbn; lia]].
  exists (L0 ++ [XPlace]). cbn [aput ar_x ar_w ar_l cx px]. rewrite EX. rewrite !app_length. cbn [length].
  split; [lia|]. split; auto. split; auto.
  destruct HD as [HD|[HD Hdel]].
  - left. rewrite <- HD, EL. rewrite setlast_snoc. auto.
  - right. split; auto. pose proof (drel_len _ _ _ HD) as HdL.
    assert (HaL : ar_l a <> []) by (intros E; rewrite E, EL, app_length in HdL; cbn in HdL; lia).
    destruct (snoc_of _ HaL) as (L1 & l1 & EL1). rewrite EL1, setlast_snoc. apply drel_app.
    rewrite EL, EL1 in HD. eapply drel_inv_app; eauto.
Qed.

Lemma acommit_ok u a r : ule_wf u -> ar_w a <> [] -> length (ar_x a) = length (ar_l a) ->
  rel1 S u a -> ar_x a = [r] -> r <> TXNID_NONE -> room 254 u ->
  ule_apply_commit u (ar_x a) = Some (pushed u)
  /\ rel1 S (pushed u) (mkARow (full a) [r] [XPlace]) /\ room 253 (pushed u).
Proof.
  intros W Hw Hlen R1 EX Hr Hroom. pose proof (rel1_pushed u a W Hw Hlen R1) as Hpush.
  split; [|split; [apply (rel1_places (pushed u) [r]); auto; apply pushed_px|apply pushed_room; auto]].
  destruct R1 as (LA & Hl & Hp & Hs & HD). rewrite EX in *. cbn [length] in Hl.
  destruct LA as [|l [|l2 LA]]; try discriminate.
  rewrite (commit_ok u r l); auto; [|apply wf_nonempty; auto|unfold room in *; lia].
  unfold pushed. destruct (is_place l) eqn:El.
  - cbn [strip] in Hp. rewrite El in Hp. rewrite Hp. reflexivity.
  - cbn [strip] in Hp. rewrite El in Hp. rewrite Hp. reflexivity.
Qed.
End Steps.
