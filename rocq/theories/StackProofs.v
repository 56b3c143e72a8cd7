(** The operations of ft/ule.cc seen as operations on a chain of transaction
    levels. *)
From Verif Require Import Base Bytes UleModel UleSpec LeCodecProofs LeAccProofs UleWf.
Open Scope N_scope.

(** ** Levels *)

Fixpoint zipx (X : xids) (L : list xr) : list uxr :=
  match X, L with
  | x :: X', l :: L' => mkUxr x l :: zipx X' L'
  | _, _ => []
  end.

(** Without the trailing placeholders. *)
Fixpoint strip (L : list xr) : list xr :=
  match L with
  | [] => []
  | l :: L' => match strip L' with
               | [] => if is_place l then [] else [l]
               | s => l :: s
               end
  end.

(** The last record that is not a placeholder. *)
Fixpoint lastnp (L : list xr) : xr :=
  match L with
  | [] => XPlace
  | l :: L' => match lastnp L' with XPlace => l | v => v end
  end.

Definition setlast (L : list xr) (r : xr) : list xr := removelast L ++ [r].
Definition lastv (p : list uxr) : xr := ux_xr (last p dummy).

Lemma is_place_iff r : is_place r = true <-> r = XPlace.
Proof. destruct r; cbn; split; congruence. Qed.

Lemma strip_nil L : strip L = [] <-> lastnp L = XPlace.
Proof.
  induction L as [|l L IH]; cbn; [tauto|]. destruct (strip L) eqn:E.
  - assert (El : lastnp L = XPlace) by (apply IH; auto). rewrite El.
    destruct (is_place l) eqn:Ep; [apply is_place_iff in Ep; tauto|].
    split; [discriminate|]. intros ->. discriminate.
  - split; [discriminate|]. intros H. destruct (lastnp L) eqn:El; try discriminate.
    destruct IH as [_ IH]. specialize (IH eq_refl). discriminate.
Qed.

Lemma lastnp_app L r : r <> XPlace -> lastnp (L ++ [r]) = r.
Proof.
  intros H. induction L as [|l L IH]; cbn; [destruct r; congruence|]. rewrite IH. destruct r; congruence.
Qed.

Lemma lastnp_places L n : lastnp (L ++ repeat XPlace n) = lastnp L.
Proof.
  induction L as [|l L IH]; cbn.
  - induction n; cbn; auto. rewrite IHn. auto.
  - rewrite IH. auto.
Qed.

Lemma strip_app L r : r <> XPlace -> strip (L ++ [r]) = L ++ [r].
Proof.
  intros H. induction L as [|l L IH]; cbn; [destruct r; cbn; congruence|]. rewrite IH.
  destruct (L ++ [r]) eqn:E; [destruct L; discriminate|auto].
Qed.

Lemma strip_places L n : strip (L ++ repeat XPlace n) = strip L.
Proof.
  induction L as [|l L IH]; cbn.
  - induction n; cbn; auto. rewrite IHn. auto.
  - rewrite IH. auto.
Qed.

Lemma strip_repeat n : strip (repeat XPlace n) = [].
Proof. exact (strip_places [] n). Qed.

Lemma strip_place L : strip (L ++ [XPlace]) = strip L.
Proof. apply (strip_places L 1). Qed.

Lemma strip_len L : (length (strip L) <= length L)%nat.
Proof.
  induction L as [|l L IH]; cbn; auto. destruct (strip L); [destruct (is_place l); cbn; lia|]. cbn in *. lia.
Qed.

Lemma strip_lastnp L : strip L <> [] -> last (strip L) XPlace = lastnp L.
Proof.
  induction L as [|l L IH]; cbn; [congruence|]. destruct (strip L) as [|a s] eqn:E.
  - apply strip_nil in E. rewrite E. destruct (is_place l) eqn:Ep; [congruence|auto].
  - intros _. specialize (IH ltac:(discriminate)).
    assert (Hn : lastnp L <> XPlace) by (intros Hc; apply strip_nil in Hc; congruence).
    change (last (l :: a :: s) XPlace) with (last (a :: s) XPlace). rewrite IH.
    destruct (lastnp L); auto. congruence.
Qed.

Lemma strip_split L : exists n, L = strip L ++ repeat XPlace n.
Proof.
  induction L as [|l L (n & IH)]; [exists O; auto|]. cbn. destruct (strip L) eqn:E.
  - destruct (is_place l) eqn:Ep.
    + apply is_place_iff in Ep. subst l. exists (S n). cbn. cbn in IH. congruence.
    + exists n. cbn. cbn in IH. congruence.
  - exists n. cbn in *. congruence.
Qed.

Lemma strip_idem L : strip (strip L) = strip L.
Proof. destruct (strip_split L) as (n & E). rewrite E at 2. rewrite strip_places. auto. Qed.

Lemma zipx_len X L : (length L <= length X)%nat -> length (zipx X L) = length L.
Proof.
  revert L. induction X as [|x X IH]; intros [|l L] H; cbn in *; auto; [lia|]. rewrite IH; lia.
Qed.

Lemma zipx_xids X L : map ux_xid (zipx X L) = firstn (length L) X.
Proof. revert L. induction X as [|x X IH]; intros [|l L]; cbn; auto. rewrite IH. auto. Qed.

Lemma zipx_xrs X L : (length L <= length X)%nat -> map ux_xr (zipx X L) = L.
Proof. revert L. induction X as [|x X IH]; intros [|l L] H; cbn in *; auto; [lia|]. rewrite IH; auto. lia. Qed.

Lemma zipx_app X1 X2 L1 L2 : length X1 = length L1 -> zipx (X1 ++ X2) (L1 ++ L2) = zipx X1 L1 ++ zipx X2 L2.
Proof.
  revert L1. induction X1 as [|x X1 IH]; intros [|l L1] H; try discriminate; cbn; auto. rewrite IH; auto.
Qed.

Lemma zipx_ext X Y L : (length L <= length X)%nat -> zipx (X ++ Y) L = zipx X L.
Proof.
  revert L. induction X as [|x X IH]; intros [|l L] H; cbn in *; try lia; auto.
  - destruct Y; auto.
  - rewrite IH; auto. lia.
Qed.

Lemma lastv_zipx X L : length X = length L -> strip L <> [] -> lastv (zipx X (strip L)) = lastnp L.
Proof.
  intros H Hs. rewrite <- (strip_lastnp L Hs). unfold lastv.
  pose proof (strip_len L) as Hl. rewrite <- (zipx_xrs X (strip L)) at 2 by lia.
  assert (Hz : zipx X (strip L) <> []).
  { intros Hz. apply (f_equal (@length _)) in Hz. rewrite zipx_len in Hz by lia.
    destruct (strip L); [congruence|discriminate]. }
  destruct (exists_last Hz) as (l & a & E). rewrite E, map_app, last_last. cbn. rewrite last_last. auto.
Qed.

Lemma lastv_cons o p : p <> [] -> lastv (o :: p) = lastv p.
Proof. intros H. unfold lastv. destruct p; [congruence|reflexivity]. Qed.

Lemma innermost_stack u X L : cx u <> [] -> length X = length L -> px u = zipx X (strip L) ->
  exists i, ule_innermost u = Some i /\
    ux_xr i = match lastnp L with XPlace => ux_xr (hd dummy (cx u)) | v => v end.
Proof.
  intros Hc H Hp. unfold ule_innermost. destruct (cx u) as [|c cs]; [congruence|]. eexists; split; [reflexivity|].
  rewrite Hp. destruct (strip L) as [|a s] eqn:Es.
  - assert (lastnp L = XPlace) by (apply strip_nil; auto). rewrite H0. destruct X; reflexivity.
  - rewrite <- Es. assert (Hs : strip L <> []) by congruence.
    pose proof (lastv_zipx X L H Hs) as E. unfold lastv in E.
    assert (Hz : zipx X (strip L) <> []).
    { intros Hz. apply (f_equal (@length _)) in Hz. rewrite zipx_len in Hz by (pose proof (strip_len L); lia).
      rewrite Es in Hz. discriminate. }
    rewrite (last_default _ c dummy) by auto. rewrite E.
    destruct (lastnp L) eqn:El; auto. exfalso. apply Hs. apply strip_nil. auto.
Qed.

(** ** Implicit promotion *)

Definition hd_eq (X Y : xids) : bool :=
  match X, Y with x :: _, y :: _ => x =? y | _, _ => false end.

(** The provisional stack once implicitly promoted for the chain [X]. *)
Definition norm (X : xids) (p : list uxr) : list uxr :=
  match common_prefix p X with
  | O => []
  | S i => if (i <? length p - 1)%nat
           then firstn i p ++ [mkUxr (ux_xid (nth i p dummy)) (lastv p)]
           else p
  end.

(** Levels of a chain [X1] seen from the chain [X2]. *)
Fixpoint relevel (X1 X2 : xids) (L : list xr) : list xr :=
  match X1, X2, L with
  | x1 :: X1', x2 :: X2', l :: L' =>
      if hd_eq X1' X2' then l :: relevel X1' X2' L'
      else lastnp (l :: L') :: repeat XPlace (length X2')
  | _, _, _ => repeat XPlace (length X2)
  end.

Lemma common_hd p X : common_prefix p X <> O <-> hd_eq (map ux_xid p) X = true.
Proof.
  destruct p as [|o p], X as [|x X]; cbn; try (split; [congruence|discriminate]).
  rewrite N.eqb_sym. destruct (ux_xid o =? x); split; congruence.
Qed.

Lemma norm_cons x X o p : ux_xid o = x ->
  norm (x :: X) (o :: p) =
    if is_nil p then [o]
    else if hd_eq (map ux_xid p) X then o :: norm X p
    else [mkUxr x (lastv p)].
Proof.
  intros E. unfold norm at 1. cbn [common_prefix]. rewrite E, N.eqb_refl.
  destruct p as [|o2 p]; [cbn; reflexivity|]. cbn [is_nil].
  rewrite lastv_cons by discriminate.
  destruct (hd_eq (map ux_xid (o2 :: p)) X) eqn:Eh.
  - apply common_hd in Eh. unfold norm. destruct (common_prefix (o2 :: p) X) as [|i]; [congruence|].
    cbn [length]. replace (S i <? S (S (length p)) - 1)%nat with (i <? S (length p) - 1)%nat by lia.
    destruct (i <? S (length p) - 1)%nat; [|reflexivity]. cbn [firstn nth app]. reflexivity.
  - assert (Ec : common_prefix (o2 :: p) X = O).
    { destruct (common_prefix (o2 :: p) X) eqn:Ec; auto. exfalso.
      assert (Hn : common_prefix (o2 :: p) X <> O) by lia. apply common_hd in Hn. congruence. }
    rewrite Ec. cbn [length]. replace (0 <? S (S (length p)) - 1)%nat with true by lia.
    cbn [firstn nth app]. rewrite E. reflexivity.
Qed.

Lemma norm_levels X1 : forall X2 L, length X1 = length L -> hd_eq X1 X2 = true ->
  norm X2 (zipx X1 (strip L)) = zipx X2 (strip (relevel X1 X2 L)).
Proof.
  induction X1 as [|x X1 IH]; intros [|x2 X2] [|l L] Hlen Hh; try discriminate.
  cbn [hd_eq] in Hh. apply N.eqb_eq in Hh. subst x2. cbn [length] in Hlen. injection Hlen as Hlen.
  cbn [strip relevel]. destruct (strip L) as [|a s] eqn:Es.
  - (* nothing below *)
    assert (En : lastnp L = XPlace) by (apply strip_nil; auto).
    assert (Er : strip (if hd_eq X1 X2 then l :: relevel X1 X2 L
                        else lastnp (l :: L) :: repeat XPlace (length X2))
                 = if is_place l then [] else [l]).
    { destruct (hd_eq X1 X2) eqn:Eh.
      - cbn [strip]. specialize (IH X2 L Hlen Eh). rewrite Es in IH.
        assert (Ez : zipx X2 (strip (relevel X1 X2 L)) = []) by (rewrite <- IH; destruct X1; reflexivity).
        destruct (strip (relevel X1 X2 L)) eqn:Ex; auto. exfalso.
        destruct X1, X2; try discriminate Eh. discriminate Ez.
      - cbn [lastnp]. rewrite En. cbn [strip].
        rewrite strip_repeat. reflexivity. }
    rewrite Er. destruct (is_place l); cbn [zipx]; [reflexivity|].
    destruct X1, X2; reflexivity || (unfold norm; cbn; rewrite N.eqb_refl; reflexivity).
  - rewrite <- Es in *.
    assert (Ez : zipx X1 (strip L) <> []).
    { rewrite Es. destruct X1, L; try discriminate; cbn in *; try discriminate. }
    destruct (strip L) as [|a' s'] eqn:Es'; [congruence|]. rewrite <- Es' in *.
    cbn [zipx]. rewrite norm_cons by reflexivity.
    destruct (is_nil (zipx X1 (strip L))) eqn:Enil; [destruct (zipx X1 (strip L)); [congruence|discriminate]|].
    assert (Ehd : hd_eq (map ux_xid (zipx X1 (strip L))) X2 = hd_eq X1 X2).
    { rewrite zipx_xids. rewrite Es'. cbn [length firstn]. destruct X1; reflexivity. }
    rewrite Ehd. destruct (hd_eq X1 X2) eqn:Eh.
    + rewrite IH by auto. cbn [strip].
      assert (Hne : strip (relevel X1 X2 L) <> []).
      { intros Hc. specialize (IH X2 L Hlen Eh). rewrite Hc in IH.
        assert (Hz : norm X2 (zipx X1 (strip L)) = []) by (rewrite IH; destruct X2; reflexivity).
        unfold norm in Hz.
        assert (Hn : common_prefix (zipx X1 (strip L)) X2 <> O) by (apply common_hd; rewrite Ehd; auto).
        destruct (common_prefix (zipx X1 (strip L)) X2); [congruence|].
        destruct (n <? length (zipx X1 (strip L)) - 1)%nat; [|congruence].
        destruct (firstn n (zipx X1 (strip L))); discriminate. }
      destruct (strip (relevel X1 X2 L)); [congruence|reflexivity].
    + assert (Hs : strip L <> []) by congruence.
      rewrite (lastv_zipx X1 L) by auto. cbn [lastnp].
      assert (Hn : lastnp L <> XPlace) by (intros Hc; apply strip_nil in Hc; congruence).
      cbn [strip]. rewrite strip_repeat.
      destruct (lastnp L) eqn:El; try congruence; cbn [is_place zipx]; destruct X2; reflexivity.
Qed.

Lemma relevel_len X1 : forall X2 L, length X1 = length L -> length (relevel X1 X2 L) = length X2.
Proof.
  induction X1 as [|x X1 IH]; intros [|x2 X2] [|l L] H; cbn in *; try discriminate; rewrite ?repeat_length; auto.
  destruct (hd_eq X1 X2); cbn; [rewrite IH; auto|rewrite repeat_length; auto].
Qed.

Lemma relevel_same X : forall L, length X = length L -> relevel X X L = L.
Proof.
  induction X as [|x X IH]; intros [|l L] H; try discriminate; cbn; auto.
  cbn in H. injection H as H. destruct X as [|x2 X], L as [|l2 L]; try discriminate; cbn [hd_eq].
  - cbn. reflexivity.
  - rewrite N.eqb_refl. rewrite IH; auto.
Qed.

(** ** Room in the array *)
Definition room (j : nat) (u : ule) : Prop := (length (cx u) + j <= ucap u)%nat.

Lemma reload_room u : room 255 (ule_reload u).
Proof.
  unfold room, ule_reload, unpack_cap. cbn [cx ucap]. unfold MAX_TRANSACTION_RECORDS.
  destruct (Nat.ltb_spec (length (cx u)) 254); lia.
Qed.

Lemma init_room : room 255 ule_init_empty.
Proof. unfold room, ule_init_empty, MAX_TRANSACTION_RECORDS. cbn. lia. Qed.

Lemma promote_ok u o p : px u = o :: p -> cx u <> [] -> lastv (px u) <> XPlace -> room 1 u ->
  ule_promote_to_committed u = Some (mkUle (mkUxr (ux_xid o) (lastv (px u)) :: cx u) [] (ucap u)).
Proof.
  intros Hp Hc Hl Hr. unfold ule_promote_to_committed. rewrite Hp.
  rewrite innermost_px by (auto; rewrite Hp; discriminate). rewrite <- Hp.
  change (ux_xr (last (px u) dummy)) with (lastv (px u)).
  destruct (is_place (lastv (px u))) eqn:E; [apply is_place_iff in E; congruence|]. cbn [negb].
  unfold ule_push, first_empty_ok. cbn [px cx ucap length is_nil]. unfold MAX_TRANSACTION_RECORDS.
  unfold room in Hr. destruct (_ && _) eqn:Eb; [reflexivity|]. lia.
Qed.

Lemma implicit_ok u X : cx u <> [] -> (px u <> [] -> lastv (px u) <> XPlace) -> X <> [] ->
  (length (px u) < MAX_TRANSACTION_RECORDS)%nat -> room 254 u ->
  ule_do_implicit_promotions u X = Some
    (match px u with
     | [] => u
     | o :: _ => if hd_eq (map ux_xid (px u)) X then mkUle (cx u) (norm X (px u)) (ucap u)
                 else mkUle (mkUxr (ux_xid o) (lastv (px u)) :: cx u) [] (ucap u)
     end).
Proof.
  intros Hc Hl HX Hn Hr. unfold ule_do_implicit_promotions.
  destruct (px u) as [|o p] eqn:Ep; [reflexivity|]. rewrite <- Ep in *.
  assert (Hp : px u <> []) by (rewrite Ep; discriminate). specialize (Hl Hp).
  destruct (is_nil (px u)) eqn:E1; [rewrite Ep in E1; discriminate|].
  destruct X as [|x X]; [congruence|]. cbn [is_nil negb]. set (Y := x :: X) in *.
  destruct (hd_eq (map ux_xid (px u)) Y) eqn:Eh.
  - apply common_hd in Eh. unfold norm. destruct (common_prefix (px u) Y) as [|i]; [congruence|].
    destruct (i <? length (px u) - 1)%nat eqn:Ei; [|destruct u; cbn in *; congruence].
    unfold ule_promote_to_index. rewrite Ei. rewrite innermost_px by auto.
    change (ux_xr (last (px u) dummy)) with (lastv (px u)).
    destruct (is_place (lastv (px u))) eqn:E; [apply is_place_iff in E; congruence|]. cbn [negb].
    rewrite (nth_error_nth' (px u) dummy) by lia.
    unfold ule_push, first_empty_ok. cbn [px cx ucap].
    assert (El : length (firstn i (px u)) = i) by (rewrite firstn_length; lia). rewrite El.
    unfold room in Hr. unfold MAX_TRANSACTION_RECORDS in *.
    destruct (_ && _) eqn:Eb; [reflexivity|]. lia.
  - assert (Ec : common_prefix (px u) Y = O).
    { destruct (common_prefix (px u) Y) eqn:Ec; auto. exfalso.
      assert (Hn' : common_prefix (px u) Y <> O) by lia. apply common_hd in Hn'. congruence. }
    rewrite Ec. rewrite (promote_ok u o p); auto. unfold room in *. lia.
Qed.

(** ** Writing *)

Lemma xids_match_zip p X : map ux_xid p = firstn (length p) X -> xids_match_prefix p X = true.
Proof.
  revert X. induction p as [|o p IH]; intros X H; cbn in *; auto.
  destruct X as [|x X]; cbn in H; [discriminate|]. injection H as -> H. rewrite N.eqb_refl. cbn. apply IH. auto.
Qed.

Lemma push_placeholders_ok xs : forall u, cx u <> [] ->
  (length (px u) + length xs <= 252)%nat -> room 253 u ->
  push_placeholders u xs = Some (mkUle (cx u) (px u ++ map (fun x => mkUxr x XPlace) xs) (ucap u)).
Proof.
  induction xs as [|x xs IH]; intros u Hc Hl Hr; cbn [push_placeholders map].
  - rewrite app_nil_r. destruct u; reflexivity.
  - unfold ule_push_placeholder. destruct (cx u) eqn:Ec; [congruence|]. cbn [is_nil negb]. rewrite <- Ec.
    cbn [length] in Hl.
    assert (Hf : first_empty_ok u = true).
    { unfold first_empty_ok, MAX_TRANSACTION_RECORDS. unfold room in Hr. lia. }
    rewrite Hf. rewrite IH; cbn [cx px ucap].
    + rewrite <- app_assoc. reflexivity.
    + rewrite Ec. discriminate.
    + rewrite app_length. cbn. lia.
    + unfold room in *. cbn. auto.
Qed.

Lemma zipx_places X L : (length L <= length X)%nat ->
  zipx X (L ++ repeat XPlace (length X - length L))
  = zipx X L ++ map (fun x => mkUxr x XPlace) (skipn (length L) X).
Proof.
  revert L. induction X as [|x X IH]; intros [|l L] H; cbn in *; try lia; auto.
  - f_equal. specialize (IH [] ltac:(cbn; lia)). cbn in IH. rewrite Nat.sub_0_r in IH.
    rewrite IH. destruct X; reflexivity.
  - f_equal. apply IH. lia.
Qed.

Lemma xids_innermost_snoc X x : xids_innermost (X ++ [x]) = x.
Proof. unfold xids_innermost. apply last_last. Qed.

(** The records already there for this transaction: the innermost one when every
    level is filled. *)
Lemma stack_full X x L l : length X = length L -> ~ In x X ->
  (ux_xid (last (zipx (X ++ [x]) (strip (L ++ [l]))) dummy) = x /\ zipx (X ++ [x]) (strip (L ++ [l])) <> [])
  <-> l <> XPlace.
Proof.
  intros H Hx. split.
  - intros [E Hz] ->. rewrite strip_place in *. pose proof (strip_len L).
    rewrite zipx_ext in * by lia.
    destruct (exists_last Hz) as (q & a & Eq). rewrite Eq, last_last in E.
    apply Hx. rewrite <- E.
    assert (Hi : In (ux_xid a) (map ux_xid (zipx X (strip L)))).
    { rewrite Eq, map_app. apply in_or_app. right. left. auto. }
    rewrite zipx_xids in Hi. rewrite <- (firstn_skipn (length (strip L)) X). apply in_or_app. auto.
  - intros Hl. rewrite strip_app by auto. rewrite zipx_app by auto. cbn [zipx]. rewrite last_last.
    split; [reflexivity|]. destruct (zipx X L); discriminate.
Qed.

Lemma put_ok u X x L l r : cx u <> [] -> px u = zipx (X ++ [x]) (strip (L ++ [l])) ->
  length X = length L -> ~ In x X -> x <> TXNID_NONE -> (length X <= 252)%nat -> room 253 u ->
  r <> XPlace ->
  (do u1 <- ule_prepare_for_new_uxr u (X ++ [x]);
   ule_push u1 (x =? TXNID_NONE) x r)
  = Some (mkUle (cx u) (zipx (X ++ [x]) (strip (L ++ [r]))) (ucap u)).
Proof.
  intros Hc Hp Hlen Hx Hx0 HX Hr Hnp. unfold ule_prepare_for_new_uxr. rewrite xids_innermost_snoc.
  assert (Ex : (x =? TXNID_NONE) = false) by (apply N.eqb_neq; auto). rewrite Ex. cbn [andb].
  assert (Hi : exists i, ule_innermost u = Some i /\ (px u <> [] -> i = last (px u) dummy)).
  { destruct (px u) as [|o p] eqn:E.
    - unfold ule_innermost. destruct (cx u); [congruence|]. eexists; split; [reflexivity|]. congruence.
    - rewrite <- E. rewrite innermost_px by (auto; rewrite E; discriminate). eauto. }
  destruct Hi as (i & Hi & Hi2). unfold ule_innermost_xid. rewrite Hi.
  rewrite (strip_app L r Hnp). rewrite zipx_app by auto. cbn [zipx].
  pose proof (stack_full X x L l Hlen Hx) as Hfull. rewrite <- Hp in Hfull.
  assert (Hlz : length (px u) = length (strip (L ++ [l]))).
  { rewrite Hp. apply zipx_len. pose proof (strip_len (L ++ [l])). rewrite app_length in *. cbn in *. lia. }
  destruct (negb (is_nil (px u)) && (ux_xid i =? x)) eqn:E.
  - apply andb_prop in E. destruct E as [E1 E2]. apply N.eqb_eq in E2.
    assert (Hpn : px u <> []) by (intros Hc'; rewrite Hc' in E1; discriminate).
    rewrite (Hi2 Hpn) in E2. assert (Hl : l <> XPlace) by (apply Hfull; auto).
    unfold ule_remove_innermost. destruct (cx u) eqn:Ec; [congruence|]. rewrite E1. rewrite <- Ec.
    unfold ule_push. rewrite strip_app in Hp by auto. rewrite zipx_app in Hp by auto. cbn [zipx] in Hp.
    rewrite Hp. rewrite removelast_last.
    assert (Hf : first_empty_ok (mkUle (cx u) (zipx X L) (ucap u)) = true).
    { unfold first_empty_ok, MAX_TRANSACTION_RECORDS. cbn [px cx ucap]. rewrite zipx_len by lia.
      unfold room in Hr. lia. }
    rewrite Hf. reflexivity.
  - assert (Hl : l = XPlace).
    { destruct l; auto; exfalso.
      all: destruct Hfull as [_ Hfull]; destruct Hfull as [F1 F2]; [discriminate|];
        rewrite (Hi2 F2) in E; rewrite F1, N.eqb_refl, andb_true_r in E;
        destruct (px u); [congruence|discriminate]. }
    subst l. rewrite strip_place in *. pose proof (strip_len L) as HsL.
    rewrite zipx_ext in Hp by lia.
    unfold ule_add_placeholders. destruct (cx u) eqn:Ec; [congruence|]. cbn [is_nil negb]. rewrite <- Ec in *.
    assert (Hm : xids_match_prefix (px u) (X ++ [x]) = true).
    { apply xids_match_zip. rewrite Hlz. rewrite Hp, zipx_xids. rewrite firstn_app.
      replace (length (strip L) - length X)%nat with O by lia. cbn. rewrite app_nil_r. auto. }
    assert (EX : is_nil (X ++ [x]) = false) by (destruct X; reflexivity).
    rewrite Hm, EX. cbn [negb].
    rewrite removelast_last, Hlz.
    rewrite push_placeholders_ok; auto; try congruence.
    2:{ rewrite skipn_length. lia. }
    unfold ule_push.
    assert (Hzp : px u ++ map (fun x => mkUxr x XPlace) (skipn (length (strip L)) X) = zipx X L).
    { rewrite Hp. rewrite <- zipx_places by lia. f_equal.
      destruct (strip_split L) as (n & En). rewrite En at 3. f_equal. f_equal.
      apply (f_equal (@length _)) in En. rewrite app_length, repeat_length in En. lia. }
    rewrite Hzp.
    assert (Hf : first_empty_ok (mkUle (cx u) (zipx X L) (ucap u)) = true).
    { unfold first_empty_ok, MAX_TRANSACTION_RECORDS. cbn [px cx ucap]. rewrite zipx_len by lia.
      unfold room in Hr. lia. }
    rewrite Hf. reflexivity.
Qed.

(** ** Aborting *)

Lemma remove_places_ok X L c : forall cap fuel, c <> [] -> ux_xr (hd dummy c) <> XPlace ->
  length X = length L -> (length L < fuel)%nat ->
  ule_remove_innermost_placeholders fuel (mkUle c (zipx X L) cap)
  = Some (mkUle c (zipx X (strip L)) cap).
Proof.
  revert X. induction L as [|l L IH] using rev_ind; intros X cap fuel Hc Hh Hlen Hf.
  - destruct fuel; [lia|]. cbn [ule_remove_innermost_placeholders strip]. destruct X; [|discriminate].
    cbn [zipx]. unfold ule_innermost. cbn [cx px]. destruct c as [|a c]; [congruence|]. cbn in *.
    destruct (is_place (ux_xr a)) eqn:E; [apply is_place_iff in E; congruence|reflexivity].
  - destruct fuel; [lia|]. rewrite app_length in *. cbn [length] in *.
    destruct (exists_last (l := X)) as (X' & x & ->); [destruct X; [cbn in Hlen; lia|discriminate]|].
    rewrite app_length in Hlen. cbn in Hlen. assert (Hlen' : length X' = length L) by lia.
    cbn [ule_remove_innermost_placeholders]. rewrite innermost_px; cbn [px cx]; auto.
    2:{ rewrite zipx_app by auto. cbn. destruct (zipx X' L); discriminate. }
    rewrite zipx_app by auto. cbn [zipx]. rewrite last_last. cbn [ux_xr].
    destruct (is_place l) eqn:E.
    + apply is_place_iff in E. subst l. rewrite strip_place.
      destruct (is_nil (zipx X' L ++ [mkUxr x XPlace])) eqn:En; [destruct (zipx X' L); discriminate|].
      cbn [negb]. unfold ule_remove_innermost. cbn [cx px ucap]. destruct c as [|a c]; [congruence|].
      rewrite En. cbn [negb]. rewrite removelast_last. rewrite IH; auto; [|lia].
      rewrite zipx_ext; auto. pose proof (strip_len L). lia.
    + rewrite strip_app by (intros ->; discriminate). rewrite zipx_app by auto. reflexivity.
Qed.

Lemma abort_ok u X x L l : cx u <> [] -> ux_xr (hd dummy (cx u)) <> XPlace ->
  px u = zipx (X ++ [x]) (strip (L ++ [l])) ->
  length X = length L -> ~ In x X -> x <> TXNID_NONE ->
  exists z, ule_apply_abort u (X ++ [x])
  = Some (mkUle (cx u) (zipx (X ++ [x]) (strip (L ++ [XPlace]))) (ucap u), z).
Proof.
  intros Hc Hh Hp Hlen Hx Hx0. unfold ule_apply_abort. cbv zeta. rewrite xids_innermost_snoc.
  assert (Ex : (x =? TXNID_NONE) = false) by (apply N.eqb_neq; auto). rewrite Ex. cbn [negb].
  assert (Hi : exists i, ule_innermost u = Some i /\ (px u <> [] -> i = last (px u) dummy)).
  { destruct (px u) as [|o p] eqn:E.
    - unfold ule_innermost. destruct (cx u); [congruence|]. eexists; split; [reflexivity|]. congruence.
    - rewrite <- E. rewrite innermost_px by (auto; rewrite E; discriminate). eauto. }
  destruct Hi as (i & Hi & Hi2). rewrite Hi.
  pose proof (stack_full X x L l Hlen Hx) as Hfull. rewrite <- Hp in Hfull.
  rewrite strip_place. pose proof (strip_len L) as HsL. rewrite (zipx_ext X [x] (strip L)) by lia.
  destruct (negb (is_nil (px u)) && (ux_xid i =? x)) eqn:E.
  - apply andb_prop in E. destruct E as [E1 E2]. apply N.eqb_eq in E2.
    assert (Hpn : px u <> []) by (intros Hc'; rewrite Hc' in E1; discriminate).
    rewrite (Hi2 Hpn) in E2. assert (Hl : l <> XPlace) by (apply Hfull; auto).
    unfold ule_remove_innermost. destruct (cx u) eqn:Ec; [congruence|]. rewrite E1. rewrite <- Ec in *.
    rewrite strip_app in Hp by auto. rewrite zipx_app in Hp by auto. cbn [zipx] in Hp.
    rewrite Hp. rewrite removelast_last.
    rewrite remove_places_ok; cbn [px]; auto.
    2:{ rewrite zipx_len by lia. lia. }
    cbn [cx]. rewrite Ec. cbn [is_nil negb]. eexists. reflexivity.
  - assert (Hl : l = XPlace).
    { destruct l; auto; exfalso.
      all: destruct Hfull as [_ Hfull]; destruct Hfull as [F1 F2]; [discriminate|];
        rewrite (Hi2 F2) in E; rewrite F1, N.eqb_refl, andb_true_r in E;
        destruct (px u); [congruence|discriminate]. }
    subst l. rewrite strip_place, zipx_ext in Hp by lia.
    destruct (cx u) eqn:Ec; [congruence|]. cbn [is_nil negb]. eexists. do 2 f_equal.
    rewrite <- Ec, <- Hp. destruct u; reflexivity.
Qed.

(** ** Committing a root transaction *)

Lemma commit_ok u x l : cx u <> [] -> px u = zipx [x] (strip [l]) -> x <> TXNID_NONE -> room 1 u ->
  ule_apply_commit u [x] = Some
    (if is_place l then u else mkUle (mkUxr x l :: cx u) [] (ucap u)).
Proof.
  intros Hc Hp Hx Hr. unfold ule_apply_commit. cbv zeta. cbn [xids_innermost last].
  assert (Ex : (x =? TXNID_NONE) = false) by (apply N.eqb_neq; auto).
  rewrite Ex. cbn [negb]. destruct (is_place l) eqn:El.
  - apply is_place_iff in El. subst l. cbn in Hp. rewrite Hp. reflexivity.
  - assert (Hl : l <> XPlace) by (intros ->; discriminate).
    assert (Hp' : px u = [mkUxr x l]) by (rewrite Hp; cbn [strip]; rewrite El; reflexivity).
    destruct (is_nil (px u)) eqn:E1; [rewrite Hp' in E1; discriminate|].
    unfold ule_innermost_xid. rewrite innermost_px by (auto; rewrite Hp'; discriminate).
    replace (ux_xid (last (px u) dummy)) with x by (rewrite Hp'; reflexivity).
    rewrite N.eqb_refl.
    replace (length (px u) =? 1)%nat with true by (rewrite Hp'; reflexivity).
    rewrite (promote_ok u (mkUxr x l) []); auto; rewrite Hp'; auto.
Qed.
