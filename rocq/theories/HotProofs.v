(** Lemmas on single messages, for the hot indexer. *)
From Verif Require Import Base Bytes KOrd LtSpec UleModel UleSpec MulSpec HotModel HotSpec.
From Coq Require Import Lia.
Open Scope N_scope.

Definition xv (r : xr) : option bytes := match r with XIns v => Some v | _ => None end.
Definition xvo (o : option xr) : option bytes := match o with Some r => xv r | None => None end.
Definition keep (u : ule) : option ule := if has_insert u then Some u else None.
Definition ur (o : option ule) : ule := match o with Some u => u | None => ule_init_empty end.

(** The innermost record that is no placeholder. *)
Fixpoint lastv (b : xr) (l : list uxr) : xr :=
  match l with [] => b | r :: l' => lastv (if is_place (ux_xr r) then b else ux_xr r) l' end.
Definition lv (u : ule) (k : nat) : option bytes := xv (lastv (newest u) (firstn k (px u))).
Definition cv (f : txnid -> bool) (u : ule) : option bytes := xvo (accepted_committed f (cx u)).

Lemma lastv_app b l l' : lastv b (l ++ l') = lastv (lastv b l) l'.
Proof. revert b; induction l as [|r l IH]; intros b; cbn; auto. Qed.
Lemma lastv_places b ys : lastv b (map (fun x => mkUxr x XPlace) ys) = b.
Proof. induction ys; cbn; auto. Qed.

(** ** Rows without an insert *)
Lemma accepted_in f c r : accepted_committed f c = Some r -> exists x, In (mkUxr x r) c.
Proof.
  induction c as [|[x w] c IH]; [discriminate|]. cbn [accepted_committed ux_xid ux_xr].
  destruct c as [|b c].
  - intros [= <-]. exists x; now left.
  - destruct (f x). + intros [= <-]. exists x; now left.
    + intros E. destruct (IH E) as (y & Hy). exists y; now right.
Qed.
Lemma lastv_in b l : lastv b l = b \/ exists r, In r l /\ ux_xr r = lastv b l.
Proof.
  revert b; induction l as [|r l IH]; intros b; [now left|]. cbn [lastv].
  destruct (IH (if is_place (ux_xr r) then b else ux_xr r)) as [-> | (q & Hq & E)].
  - destruct (is_place (ux_xr r)); [now left|]. right. exists r; split; [now left|reflexivity].
  - right. exists q; split; [now right|exact E].
Qed.
Lemma has_insert_false u : has_insert u = false -> (forall r, In r (cx u) -> xv (ux_xr r) = None) /\ (forall r, In r (px u) -> xv (ux_xr r) = None).
Proof.
  unfold has_insert. intros H. apply Bool.orb_false_iff in H as [H1 H2].
  split; intros r Hr.
  - destruct (ux_xr r) eqn:E; cbn; auto. exfalso.
    assert (existsb (fun r => is_ins (ux_xr r)) (cx u) = true) by (apply existsb_exists; exists r; rewrite E; auto). congruence.
  - destruct (ux_xr r) eqn:E; cbn; auto. exfalso.
    assert (existsb (fun r => is_ins (ux_xr r)) (px u) = true) by (apply existsb_exists; exists r; rewrite E; auto). congruence.
Qed.
Lemma newest_xv u : has_insert u = false -> xv (newest u) = None.
Proof. intros H. apply has_insert_false in H as [H _]. unfold newest. destruct (cx u) as [|c l]; [reflexivity|]. apply H; now left. Qed.
Lemma keep_cv f u : cv f (ur (keep u)) = cv f u.
Proof.
  unfold keep. destruct (has_insert u) eqn:H; [reflexivity|]. cbn. unfold cv.
  destruct (accepted_committed f (cx u)) as [r|] eqn:E; [|reflexivity]. cbn.
  apply accepted_in in E as (x & Hx). apply has_insert_false in H as [H _]. symmetry. exact (H _ Hx).
Qed.
Lemma keep_lv u k : lv (ur (keep u)) k = lv u k.
Proof.
  unfold keep. destruct (has_insert u) eqn:H; [reflexivity|]. cbn [ur]. unfold lv.
  pose proof (newest_xv u H) as Hn. apply has_insert_false in H as [_ H].
  change (px ule_init_empty) with (@nil uxr). rewrite firstn_nil. cbn [lastv newest ule_init_empty cx ux_xr xv].
  destruct (lastv_in (newest u) (firstn k (px u))) as [-> | (r & Hr & <-)]; [now rewrite Hn|].
  symmetry. apply H. rewrite <- (firstn_skipn k (px u)). apply in_or_app; now left.
Qed.

(** ** The shape of a hot row under construction *)
Record hs (ys : xids) (u : ule) : Prop := {
  hs_ids : map ux_xid (px u) = firstn (length (px u)) ys;
  hs_len : (length (px u) <= length ys)%nat;
  hs_bot : exists l c, cx u = l ++ [mkUxr TXNID_NONE c];
  hs_last : px u = [] \/ exists l x r, px u = l ++ [mkUxr x r] /\ is_place r = false
}.
Record chain_ok (ys : xids) : Prop := {
  co_nil : ys <> [];
  co_nodup : NoDup ys;
  co_nz : ~ In 0 ys;
  co_len : (length ys < MAX_TRANSACTION_RECORDS)%nat
}.

Definition roomy (u : ule) : Prop := (length (cx u) + MAX_TRANSACTION_RECORDS <= ucap u)%nat.
Definition load (o : option ule) : ule := match o with None => ule_init_empty | Some u => ule_reload u end.
Lemma roomy_load o : roomy (load o).
Proof.
  destruct o as [u|]; unfold roomy; cbn [load ule_reload ule_init_empty cx ucap].
  - unfold unpack_cap. destruct (_ <? _)%nat eqn:E; [apply Nat.ltb_lt in E|]; unfold MAX_TRANSACTION_RECORDS in *; lia.
  - unfold MAX_TRANSACTION_RECORDS; cbn [length]; lia.
Qed.
Lemma load_cx o : cx (load o) = cx (ur o). Proof. destruct o; reflexivity. Qed.
Lemma load_px o : px (load o) = px (ur o). Proof. destruct o; reflexivity. Qed.

Lemma push_placeholders_spec u zs : roomy u -> cx u <> [] -> (length (px u) + length zs < MAX_TRANSACTION_RECORDS)%nat ->
  push_placeholders u zs = Some (mkUle (cx u) (px u ++ map (fun x => mkUxr x XPlace) zs) (ucap u)).
Proof.
  revert u; induction zs as [|z zs IH]; intros u Hr Hc Hl.
  - cbn. rewrite app_nil_r. now destruct u.
  - cbn [push_placeholders]. cbn [length] in Hl. unfold ule_push_placeholder.
    assert (is_nil (cx u) = false) as -> by (destruct (cx u); [congruence|reflexivity]). cbn [negb].
    assert (first_empty_ok u = true) as ->.
    { unfold first_empty_ok, roomy in *. apply andb_true_intro; split; apply Nat.ltb_lt; lia. }
    rewrite IH; cbn [cx px ucap].
    + cbn [map]. rewrite <- app_assoc. reflexivity.
    + exact Hr.
    + exact Hc.
    + rewrite app_length. cbn [length]. lia.
Qed.

Lemma common_prefix_full p ys : map ux_xid p = firstn (length p) ys -> common_prefix p ys = length p.
Proof.
  revert ys; induction p as [|r p IH]; intros ys H; [destruct ys; reflexivity|].
  destruct ys as [|y ys]; [discriminate H|]. cbn [length firstn map] in H. injection H as E H.
  cbn [common_prefix length]. rewrite <- E, N.eqb_refl. f_equal. now apply IH.
Qed.
Lemma match_prefix_full p ys : map ux_xid p = firstn (length p) ys -> xids_match_prefix p ys = true.
Proof.
  revert ys; induction p as [|r p IH]; intros ys H; [destruct ys; reflexivity|].
  destruct ys as [|y ys]; [discriminate H|]. cbn [length firstn map] in H. injection H as E H.
  cbn [xids_match_prefix]. rewrite E, N.eqb_refl. now apply IH.
Qed.
Lemma implicit_none ys u : chain_ok ys -> hs ys u -> ule_do_implicit_promotions u ys = Some u.
Proof.
  intros C H. unfold ule_do_implicit_promotions. destruct (px u) as [|r p] eqn:E; [reflexivity|]. cbn [is_nil].
  assert (is_nil ys = false) as -> by (destruct ys; [destruct (co_nil _ C); reflexivity|reflexivity]). cbn [negb].
  pose proof (hs_ids _ _ H) as Hi. rewrite E in Hi. rewrite (common_prefix_full _ _ Hi). cbn [length].
  replace (_ <? _)%nat with false; [reflexivity|]. symmetry. apply Nat.ltb_ge. lia.
Qed.

(** The provisional stack after a write at the end of [ys]. *)
Definition wpx (p : list uxr) (ys : xids) (w : xr) : list uxr :=
  firstn (length ys - 1) p ++ map (fun x => mkUxr x XPlace) (skipn (length p) (removelast ys)) ++ [mkUxr (last ys TXNID_NONE) w].
Lemma removelast_len {A} (l : list A) : length (removelast l) = (length l - 1)%nat.
Proof. induction l as [|a [|b l] IH]; cbn in *; lia. Qed.
Lemma last_nth {A} (l : list A) d : last l d = nth (length l - 1) l d.
Proof. induction l as [|a [|b l] IH]; [reflexivity..|]. change (last (a :: b :: l) d) with (last (b :: l) d). rewrite IH. cbn [length]. replace (S (S (length l)) - 1)%nat with (S (S (length l) - 1)) by lia. reflexivity. Qed.
Lemma nth_firstn {A} n i (l : list A) d : (i < n)%nat -> nth i (firstn n l) d = nth i l d.
Proof. revert i l; induction n; intros i l H; [lia|]. destruct l; [now destruct i|]. destruct i; [reflexivity|]. cbn. apply IHn. lia. Qed.

Lemma prepare_spec ys u : chain_ok ys -> hs ys u -> roomy u ->
  exists u1, ule_prepare_for_new_uxr u ys = Some u1 /\ cx u1 = cx u /\ ucap u1 = ucap u /\
    px u1 = firstn (length ys - 1) (px u) ++ map (fun x => mkUxr x XPlace) (skipn (length (px u)) (removelast ys)).
Proof.
  intros C H Hr. unfold ule_prepare_for_new_uxr, ule_innermost_xid, ule_innermost, xids_innermost.
  destruct (hs_bot _ _ H) as (l0 & c0 & Ec).
  assert (Hne : cx u <> []) by (rewrite Ec; destruct l0; discriminate).
  destruct (cx u) as [|c l] eqn:E; [congruence|]. 
  assert (Hl0 : (last ys TXNID_NONE =? TXNID_NONE) = false).
  { apply N.eqb_neq. intros Z. apply (co_nz _ C). change 0 with TXNID_NONE. rewrite <- Z. destruct ys; [destruct (co_nil _ C); reflexivity|].
    rewrite last_nth. apply nth_In. cbn [length]. lia. }
  rewrite Hl0. cbn [andb].
  assert (Hys : (0 < length ys)%nat) by (destruct ys; [destruct (co_nil _ C); reflexivity|cbn; lia]).
  pose proof (hs_len _ _ H) as HL. pose proof (co_len _ C) as HM.
  assert (PP : px u = [] \/ (length (px u) < length ys)%nat \/ length (px u) = length ys) by lia.
  assert (Add : (length (px u) < length ys)%nat -> exists u1, ule_add_placeholders u ys = Some u1 /\ cx u1 = c :: l /\ ucap u1 = ucap u /\
     px u1 = firstn (length ys - 1) (px u) ++ map (fun x => mkUxr x XPlace) (skipn (length (px u)) (removelast ys))).
  { intros Hlt. unfold ule_add_placeholders. rewrite E. cbn [is_nil negb]. rewrite (match_prefix_full _ _ (hs_ids _ _ H)).
    assert (is_nil ys = false) as -> by (destruct ys; [cbn in Hys; lia|reflexivity]). cbn [negb].
    rewrite push_placeholders_spec; [|exact Hr|rewrite E; discriminate|rewrite skipn_length, removelast_len; lia].
    eexists; split; [reflexivity|]. cbn [cx px ucap]. rewrite (firstn_all2 (px u)) by lia. auto. }
  destruct (Nat.eq_dec (length (px u)) (length ys)) as [El|Nl].
  - assert (Hpx : px u <> []) by (intros Z; rewrite Z in El; cbn in El; lia).
    assert (Hid : ux_xid (last (px u) c) = last ys TXNID_NONE).
    { pose proof (hs_ids _ _ H) as Hi. rewrite El, firstn_all in Hi. rewrite <- Hi.
      destruct (exists_last Hpx) as (p & r & ->). rewrite map_app. cbn [map]. rewrite !last_last. reflexivity. }
    cbn [ux_xid]. rewrite Hid, N.eqb_refl.
    assert (is_nil (px u) = false) as -> by (destruct (px u); [congruence|reflexivity]). cbn [negb andb].
    unfold ule_remove_innermost. rewrite E. assert (is_nil (px u) = false) as -> by (destruct (px u); [congruence|reflexivity]). cbn [negb].
    eexists; split; [reflexivity|]. cbn [cx px ucap]. split; [reflexivity|]. split; [reflexivity|].
    rewrite skipn_all2 by (rewrite removelast_len; lia). cbn [map]. rewrite app_nil_r.
    rewrite removelast_firstn_len. rewrite El. f_equal. lia.
  - assert (Hb : negb (is_nil (px u)) && (ux_xid (last (px u) c) =? last ys TXNID_NONE) = false).
    { destruct (px u) as [|r p] eqn:Ep; [reflexivity|]. cbn [is_nil negb andb]. apply N.eqb_neq. intros Z.
      pose proof (hs_ids _ _ H) as Hi. rewrite Ep in Hi.
      assert (Q : ux_xid (last (r :: p) c) = nth (length (r :: p) - 1) ys 0).
      { rewrite <- (nth_firstn (length (r :: p))) by (cbn; lia). rewrite <- Hi. rewrite last_nth. rewrite (nth_indep _ 0 (ux_xid c)) by (rewrite map_length; cbn; lia). now rewrite map_nth. }
      rewrite Q, last_nth in Z. apply NoDup_nth in Z; [|exact (co_nodup _ C)|cbn [length] in *; lia|lia]. cbn [length] in *. lia. }
    rewrite Hb. apply Add. lia.
Qed.

Definition wmsg (w : xr) (ys : xids) : umsg := match w with XIns v => mkUmsg (FT_INSERT v) ys | _ => mkUmsg FT_DELETE_ANY ys end.

Lemma push_spec u x w : roomy u -> (length (px u) < MAX_TRANSACTION_RECORDS - 1)%nat ->
  ule_push u false x w = Some (mkUle (cx u) (px u ++ [mkUxr x w]) (ucap u)).
Proof.
  intros Hr Hl. unfold ule_push.
  assert (first_empty_ok u = true) as ->; [|reflexivity].
  unfold first_empty_ok, roomy in *. apply andb_true_intro; split; apply Nat.ltb_lt; lia.
Qed.
Lemma last_nz ys : chain_ok ys -> (last ys TXNID_NONE =? TXNID_NONE) = false.
Proof.
  intros C. apply N.eqb_neq. intros Z. apply (co_nz _ C). change 0 with TXNID_NONE. rewrite <- Z. destruct ys; [destruct (co_nil _ C); reflexivity|].
  rewrite last_nth. apply nth_In. cbn [length]. lia.
Qed.

Lemma modify_spec ys u w : chain_ok ys -> hs ys u -> roomy u -> is_place w = false -> xr_ok w ->
  exists d, msg_modify_ule u (wmsg w ys) = Some (mkUle (cx u) (wpx (px u) ys w) (ucap u), d).
Proof.
  intros C H Hr Hw Hok.
  destruct (prepare_spec ys u C H Hr) as (u1 & E1 & Ec & Ecap & Ep).
  assert (Hm : (0 < length ys)%nat) by (destruct ys; [destruct (co_nil _ C); reflexivity|cbn; lia]).
  assert (Hl1 : (length (px u1) < MAX_TRANSACTION_RECORDS - 1)%nat).
  { pose proof (co_len _ C). rewrite Ep, app_length, map_length, skipn_length, removelast_len. pose proof (firstn_le_length (length ys - 1) (px u)).
    pose proof (hs_len _ _ H). rewrite firstn_length in *. lia. }
  assert (Hr1 : roomy u1) by (unfold roomy in *; rewrite Ec, Ecap; exact Hr).
  destruct (hs_bot _ _ H) as (l0 & c0 & Ecx).
  assert (Hin : exists o, ule_innermost u = Some o).
  { unfold ule_innermost. destruct (cx u); [destruct l0; discriminate Ecx|eauto]. }
  destruct Hin as (o & Ho).
  assert (G : (length ys <? MAX_TRANSACTION_RECORDS)%nat = true) by (apply Nat.ltb_lt; exact (co_len _ C)).
  unfold msg_modify_ule. destruct w as [v| |]; [| |discriminate Hw]; cbn [wmsg um_xids um_type is_optimize].
  - rewrite G, (implicit_none _ _ C H). unfold ule_apply_insert.
    cbn [xr_ok] in Hok. unfold len in Hok. apply N.ltb_lt in Hok. rewrite Hok, Ho, E1. unfold xids_innermost. rewrite (last_nz _ C).
    rewrite (push_spec u1 _ _ Hr1 Hl1). rewrite Ec, Ecap, Ep. unfold wpx. rewrite <- app_assoc. eexists; reflexivity.
  - rewrite G, (implicit_none _ _ C H). unfold ule_apply_delete.
    rewrite Ho, E1. unfold xids_innermost. rewrite (last_nz _ C).
    rewrite (push_spec u1 _ _ Hr1 Hl1). rewrite Ec, Ecap, Ep. unfold wpx. rewrite <- app_assoc. eexists; reflexivity.
Qed.

Lemma post_keep u : (exists l c, cx u = l ++ [mkUxr TXNID_NONE c]) -> ule_post_process u gi_keep = Some u.
Proof.
  intros (l & c & E). unfold ule_post_process, gi_keep. cbn [gi_oldest_promo gi_mvcc gi_oldest_simple gi_state].
  assert (ule_try_promote_outermost u 0 = Some u) as ->.
  { unfold ule_try_promote_outermost. destruct (px u) as [|r p]; [reflexivity|]. now destruct (ux_xid r). }
  f_equal. unfold ule_simple_gc. destruct (cx u) as [|a [|b k]] eqn:Ek; [reflexivity..|].
  assert (K : forall k, keep_until_older 0 k = k).
  { induction k0 as [|r k0 IH]; [reflexivity|]. cbn [keep_until_older]. rewrite IH. now destruct (ux_xid r). }
  rewrite K. now rewrite Nat.eqb_refl.
Qed.
Lemma pack_keep u : (exists l c, cx u = l ++ [mkUxr TXNID_NONE c]) -> (length (px u) < MAX_TRANSACTION_RECORDS)%nat -> le_pack_check u = Some (keep u).
Proof.
  intros (l & c & E) Hl. unfold le_pack_check, keep. destruct (cx u) as [|a k] eqn:Ek; [destruct l; discriminate E|].
  rewrite E, last_last. cbn [ux_xid]. rewrite N.eqb_refl.
  destruct (has_insert u); [|reflexivity]. apply Nat.ltb_lt in Hl. rewrite Hl. reflexivity.
Qed.

Lemma wpx_len p ys w : (0 < length ys)%nat -> (length p <= length ys)%nat -> length (wpx p ys w) = length ys.
Proof. intros H1 H2. unfold wpx. rewrite !app_length, map_length, skipn_length, removelast_len, firstn_length. cbn [length]. lia. Qed.

Lemma apply_write ys o w : chain_ok ys -> hs ys (ur o) -> is_place w = false -> xr_ok w ->
  exists d, le_apply_msg (wmsg w ys) o gi_keep = Some (keep (mkUle (cx (ur o)) (wpx (px (ur o)) ys w) (ucap (load o))), d).
Proof.
  intros C H Hw Hok. unfold le_apply_msg. fold (load o).
  assert (H' : hs ys (load o)).
  { destruct H. constructor; rewrite ?load_cx, ?load_px; auto. }
  destruct (modify_spec ys (load o) w C H' (roomy_load o) Hw Hok) as (d & E). rewrite E. rewrite load_cx, load_px.
  rewrite post_keep by (cbn [cx]; exact (hs_bot _ _ H)).
  rewrite pack_keep.
  - eexists; reflexivity.
  - exact (hs_bot _ _ H).
  - cbn [px]. rewrite wpx_len; [exact (co_len _ C)| |exact (hs_len _ _ H)]. destruct ys; [destruct (co_nil _ C); reflexivity|cbn; lia].
Qed.

Lemma hs_init ys : hs ys ule_init_empty.
Proof. constructor; cbn [ule_init_empty px cx length map firstn]; auto; [lia|]. exists [], XDel. reflexivity. Qed.
Lemma hs_keep ys u : hs ys u -> hs ys (ur (keep u)).
Proof. unfold keep. destruct (has_insert u); intros H; [exact H|apply hs_init]. Qed.
Lemma hs_wpx ys u w cap : chain_ok ys -> hs ys u -> is_place w = false -> hs ys (mkUle (cx u) (wpx (px u) ys w) cap).
Proof.
  intros C H Hw.
  assert (Hm : (0 < length ys)%nat) by (destruct ys; [destruct (co_nil _ C); reflexivity|cbn; lia]).
  pose proof (hs_len _ _ H) as HL.
  constructor; cbn [px cx].
  - rewrite wpx_len by lia. rewrite firstn_all. unfold wpx. rewrite !map_app, map_map. cbn [map ux_xid]. rewrite map_id.
    rewrite <- firstn_map, (hs_ids _ _ H), firstn_firstn.
    rewrite app_assoc. transitivity (removelast ys ++ [last ys TXNID_NONE]); [|symmetry; apply app_removelast_last, (co_nil _ C)]. f_equal.
    rewrite <- (firstn_skipn (length (px u)) (removelast ys)) at 2. f_equal.
    rewrite removelast_firstn_len, firstn_firstn. f_equal. lia.
  - rewrite wpx_len; lia.
  - exact (hs_bot _ _ H).
  - right. unfold wpx. rewrite app_assoc. eexists _, _, _. split; [reflexivity|exact Hw].
Qed.
Lemma lv_wpx ys u w cap : chain_ok ys -> hs ys u -> is_place w = false ->
  (forall k, (k < length ys)%nat -> lv (mkUle (cx u) (wpx (px u) ys w) cap) k = lv u k) /\
  lv (mkUle (cx u) (wpx (px u) ys w) cap) (length ys) = xv w.
Proof.
  intros C H Hw.
  assert (Hm : (0 < length ys)%nat) by (destruct ys; [destruct (co_nil _ C); reflexivity|cbn; lia]).
  pose proof (hs_len _ _ H) as HL.
  split.
  - intros k Hk. unfold lv. cbn [px newest cx]. unfold wpx. f_equal.
    rewrite app_assoc, firstn_app.
    assert (Z : (k - length (firstn (length ys - 1) (px u) ++ map (fun x => mkUxr x XPlace) (skipn (length (px u)) (removelast ys))) = 0)%nat).
    { rewrite app_length, map_length, skipn_length, removelast_len, firstn_length. lia. }
    rewrite Z. cbn [firstn]. rewrite app_nil_r, firstn_app, firstn_firstn, firstn_map, lastv_app, lastv_places.
    replace (Nat.min k (length ys - 1)) with k by lia. reflexivity.
  - unfold lv. cbn [px newest cx]. rewrite <- (wpx_len (px u) ys w Hm HL) at 1. rewrite firstn_all. unfold wpx. rewrite app_assoc, lastv_app. cbn [lastv ux_xr]. now rewrite Hw.
Qed.
