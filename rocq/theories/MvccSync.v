(** The ideal row against the specification of nested transactions. *)
From Verif Require Import Base Bytes UleModel UleSpec LeCodecProofs LeAccProofs UleWf
  MgrModel MgrSpec MgrProofs MvccModel MvccSpec StackProofs MvccGc MvccRow MvccApply MvccAsync MvccSys.
Open Scope N_scope.

(** * Levels seen from another chain *)

Lemma lastnp_cons l L : lastnp (l :: L) = match lastnp L with XPlace => l | v => v end.
Proof. reflexivity. Qed.

Lemma relevel_lastnp X : forall Y L, length X = length L -> hd_eq X Y = true ->
  lastnp (relevel X Y L) = lastnp L.
Proof.
  induction X as [|x X IH]; intros [|y Y] [|l L] Hl Hh; try discriminate. cbn [relevel].
  injection Hl as Hl. destruct (hd_eq X Y) eqn:E.
  - rewrite !lastnp_cons, IH; auto.
  - exact (lastnp_places [lastnp (l :: L)] (length Y)).
Qed.

Lemma repeat_snoc {A} (a : A) n : repeat a (S n) = repeat a n ++ [a].
Proof. cbn. apply repeat_cons. Qed.

Lemma relevel_snoc X c : forall Y L, length X = length L -> hd_eq X Y = true -> ~ In c X ->
  relevel X (Y ++ [c]) L = relevel X Y L ++ [XPlace].
Proof.
  induction X as [|x X IH]; intros [|y Y] [|l L] Hl Hh Hc; try discriminate. cbn [relevel app].
  injection Hl as Hl. destruct Y as [|y2 Y].
  - assert (E : hd_eq X ([] ++ [c]) = false).
    { destruct X as [|x2 X]; auto. cbn. apply N.eqb_neq. intros ->. apply Hc. right. left. auto. }
    rewrite E. destruct X; cbn; reflexivity.
  - assert (E : hd_eq X ((y2 :: Y) ++ [c]) = hd_eq X (y2 :: Y)) by (destruct X; reflexivity).
    rewrite E. destruct (hd_eq X (y2 :: Y)) eqn:Eh.
    + rewrite IH; auto. intros H. apply Hc. right. auto.
    + rewrite app_length, Nat.add_1_r, repeat_snoc. reflexivity.
Qed.

Lemma relevel_merge X c : forall Y L, length X = length L -> hd_eq X Y = true ->
  exists L0 p q, relevel X (Y ++ [c]) L = L0 ++ [p; q]
    /\ relevel X Y L = L0 ++ [match q with XPlace => p | _ => q end].
Proof.
  induction X as [|x X IH]; intros [|y Y] [|l L] Hl Hh; try discriminate. cbn [relevel app].
  injection Hl as Hl. destruct Y as [|y2 Y].
  - replace (hd_eq X []) with false by (destruct X; reflexivity). cbn [app length repeat].
    destruct (hd_eq X [c]) eqn:E.
    + destruct X as [|x2 X], L as [|l2 L]; try discriminate. exists [], l, (lastnp (l2 :: L)). cbn [relevel app].
      replace (hd_eq X []) with false by (destruct X; reflexivity). cbn [length repeat]. split; auto.
      rewrite (lastnp_cons l). destruct (lastnp (l2 :: L)); auto.
    + exists [], (lastnp (l :: L)), XPlace. split; auto.
  - assert (E : hd_eq X ((y2 :: Y) ++ [c]) = hd_eq X (y2 :: Y)) by (destruct X; reflexivity).
    rewrite E. destruct (hd_eq X (y2 :: Y)) eqn:Eh.
    + destruct (IH (y2 :: Y) L Hl Eh) as (L0 & p & q & E1 & E2). exists (l :: L0), p, q. rewrite E1, E2. auto.
    + exists (lastnp (l :: L) :: repeat XPlace (length Y)), XPlace, XPlace. rewrite app_length. cbn [length].
      replace (S (length Y) + 1)%nat with (S (S (length Y))) by lia. rewrite !repeat_snoc.
      rewrite <- app_assoc. auto.
Qed.

(** * Turns *)

Definition awf (a : arow) : Prop := ar_w a <> [] /\ length (ar_x a) = length (ar_l a).

Definition pushl (q : txnid) (v : xr) (W : list uxr) : list uxr :=
  match v with XPlace => W | _ => mkUxr q v :: W end.

Lemma full_push a x X : ar_x a = x :: X -> full a = pushl x (lastnp (ar_l a)) (ar_w a).
Proof. unfold full. intros ->. destruct (lastnp (ar_l a)); auto. Qed.

Lemma hd_eq_cons X y Y : hd_eq X (y :: Y) = true -> exists X', X = y :: X'.
Proof. destruct X as [|x X]; [discriminate|]. cbn. intros H. apply N.eqb_eq in H. subst. eauto. Qed.

Lemma turn_awf Y a : awf a -> awf (turn Y a).
Proof.
  intros [H1 H2]. unfold turn. destruct (hd_eq (ar_x a) Y); split; cbn; auto.
  - rewrite relevel_len; auto.
  - apply full_nonempty; auto.
  - rewrite repeat_length. auto.
Qed.

Lemma turn_x Y a : ar_x (turn Y a) = Y.
Proof. unfold turn. destruct (hd_eq (ar_x a) Y); auto. Qed.

Lemma turn_full Y a : Y <> [] -> awf a -> full (turn Y a) = full a.
Proof.
  intros HY [_ Hl]. destruct Y as [|y Y]; [congruence|]. unfold turn.
  destruct (hd_eq (ar_x a) (y :: Y)) eqn:E.
  - destruct (hd_eq_cons _ _ _ E) as (X' & EX). rewrite (full_push a y X' EX).
    rewrite (full_push (mkARow _ (y :: Y) _) y Y eq_refl). cbn [ar_l ar_w]. rewrite relevel_lastnp; auto.
  - rewrite (full_push (mkARow _ (y :: Y) _) y Y eq_refl). cbn [ar_l ar_w].
    assert (En : forall n, lastnp (repeat XPlace n) = XPlace).
    { intros n. rewrite <- (app_nil_l (repeat _ _)), lastnp_places. reflexivity. }
    rewrite En. reflexivity.
Qed.

Lemma lastnp_repeat n : lastnp (repeat XPlace n) = XPlace.
Proof. rewrite <- (app_nil_l (repeat _ _)), lastnp_places. reflexivity. Qed.

Lemma whead_full a : awf a -> whead (full a) = cur a.
Proof.
  intros [_ Hl]. unfold full, cur, resv. destruct (ar_x a) as [|x X].
  - destruct (ar_l a); [reflexivity|discriminate].
  - destruct (lastnp (ar_l a)); reflexivity.
Qed.

Lemma cur_turn Y a : Y <> [] -> awf a -> cur (turn Y a) = cur a.
Proof.
  intros HY Ha. rewrite <- (whead_full a), <- (whead_full (turn Y a)) by (auto using turn_awf).
  rewrite turn_full; auto.
Qed.

Lemma turn_same a : awf a -> ar_x a <> [] -> turn (ar_x a) a = a.
Proof.
  intros [_ Hl] Hx. unfold turn. destruct (ar_x a) as [|x X] eqn:E; [congruence|]. cbn [hd_eq]. rewrite N.eqb_refl.
  rewrite relevel_same by auto. destruct a; cbn in *. congruence.
Qed.

Lemma turn_turn Y a : Y <> [] -> awf a -> turn Y (turn Y a) = turn Y a.
Proof.
  intros HY Ha. rewrite <- (turn_x Y a) at 1. apply turn_same; [apply turn_awf; auto|]. rewrite turn_x. auto.
Qed.

Lemma turn_snoc Y c a : Y <> [] -> awf a -> (hd_eq (ar_x a) Y = true -> ~ In c (ar_x a)) ->
  ar_w (turn (Y ++ [c]) a) = ar_w (turn Y a) /\ ar_l (turn (Y ++ [c]) a) = ar_l (turn Y a) ++ [XPlace].
Proof.
  intros HY [_ Hl] Hc. unfold turn.
  assert (E : hd_eq (ar_x a) (Y ++ [c]) = hd_eq (ar_x a) Y) by (destruct (ar_x a), Y; try reflexivity; congruence).
  rewrite E. destruct (hd_eq (ar_x a) Y) eqn:Eh; cbn [ar_w ar_l]; split; auto.
  - apply relevel_snoc; auto.
  - rewrite app_length, Nat.add_1_r, repeat_snoc. auto.
Qed.

Lemma turn_merge Y c a : Y <> [] -> awf a -> exists L0 p q,
  ar_l (turn (Y ++ [c]) a) = L0 ++ [p; q] /\ ar_l (turn Y a) = L0 ++ [match q with XPlace => p | _ => q end]
  /\ ar_w (turn (Y ++ [c]) a) = ar_w (turn Y a).
Proof.
  intros HY [_ Hl]. unfold turn.
  assert (E : hd_eq (ar_x a) (Y ++ [c]) = hd_eq (ar_x a) Y) by (destruct (ar_x a), Y; try reflexivity; congruence).
  rewrite E. destruct (hd_eq (ar_x a) Y) eqn:Eh; cbn [ar_w ar_l].
  - destruct (relevel_merge (ar_x a) c Y (ar_l a) Hl Eh) as (L0 & p & q & E1 & E2). exists L0, p, q. auto.
  - destruct Y as [|y Y]; [congruence|]. exists (repeat XPlace (length Y)), XPlace, XPlace.
    rewrite app_length. cbn [length]. replace (S (length Y) + 1)%nat with (S (S (length Y))) by lia.
    rewrite !repeat_snoc, <- app_assoc. auto.
Qed.

Lemma app_last2 {A} (L L' : list A) p q a b : L ++ [p; q] = L' ++ [a; b] -> L = L' /\ p = a /\ q = b.
Proof.
  intros H. change (L ++ [p; q]) with (L ++ [p] ++ [q]) in H. change (L' ++ [a; b]) with (L' ++ [a] ++ [b]) in H.
  rewrite !app_assoc in H. apply app_inj_tail in H. destruct H as [H ->]. apply app_inj_tail in H. tauto.
Qed.

(** * The levels of the specification *)

Definition tox (w : option (option val)) : xr :=
  match w with None => XPlace | Some None => XDel | Some (Some v) => XIns v end.

Lemma lastnp_snoc L r : lastnp (L ++ [r]) = match r with XPlace => lastnp L | _ => r end.
Proof.
  induction L as [|l L IH]; [destruct r; reflexivity|]. cbn [app]. rewrite !lastnp_cons, IH.
  destruct r; auto.
Qed.

Lemma lastnp_own ls : lastnp (rev (map tox ls)) = tox (own ls).
Proof.
  induction ls as [|w ls IH]; auto. cbn [map rev]. rewrite lastnp_snoc, IH. destruct w as [[v|]|]; reflexivity.
Qed.

Lemma sees_resv ls W b : xval (whead W) = b -> xval (resv (whead W) (rev (map tox ls))) = sees ls b.
Proof.
  intros E. unfold resv, sees. rewrite lastnp_own. destruct (own ls) as [[v|]|]; auto.
Qed.

(** * What is settled *)

Definition fs (s : snap) (x : txnid) : bool := (x <? s_id s) && negb (in_live_list (s_live s) x).

Record settled (h : list event) (v : option val) (fr : txnid -> option val) (W : list uxr) : Prop := {
  e_ne : W <> [];
  e_fin : forall x, In x (nonbottom W) -> begun h x /\ finished h x;
  e_val : xval (whead W) = v;
  e_frozen : forall s, In s (snaps_of h) -> exists r, accepted_committed (fs s) W = Some r /\ xval r = fr (s_id s)
}.

Lemma settled_mono h h' v fr fr' W : settled h v fr W -> before h h' ->
  (forall s, In s (snaps_of h') -> In s (snaps_of h)) -> (forall s, In s (snaps_of h') -> fr' (s_id s) = fr (s_id s)) ->
  settled h' v fr' W.
Proof.
  intros [H1 H2 H3 H4] B Hs Hf. constructor; auto.
  - intros x Hx. destruct (H2 x Hx). split; eapply before_in; eauto.
  - intros s Hi. destruct (H4 s (Hs s Hi)) as (r & E & Er). exists r. split; auto. rewrite Er. symmetry. auto.
Qed.

Lemma acc_yes f c : c <> [] -> (forall x, In x (nonbottom c) -> f x = true) -> accepted_committed f c = Some (whead c).
Proof.
  intros Hc Hf. destruct c as [|a [|b c]]; [congruence|reflexivity|].
  rewrite acc_cons by discriminate. rewrite (Hf (ux_xid a)); [reflexivity|]. left. reflexivity.
Qed.

Lemma acc_ext f g c : (forall x, In x (nonbottom c) -> f x = g x) -> accepted_committed f c = accepted_committed g c.
Proof.
  induction c as [|a c IH]; auto. intros H. destruct c as [|b c]; auto.
  rewrite (acc_cons f a (b :: c)), (acc_cons g a (b :: c)) by discriminate.
  rewrite nonbottom_cons in H by discriminate. cbn [In] in H.
  rewrite (H (ux_xid a)) by auto. destruct (g (ux_xid a)); auto.
Qed.

(** A new snapshot. *)
Lemma settled_snap h h' v fr W s : settled h v fr W -> before h h' ->
  (forall n, In n (snaps_of h') -> In n (snaps_of h) \/ n = s) ->
  (forall x, begun h x -> finished h x -> fs s x = true) ->
  (forall n, In n (snaps_of h) -> s_id n <> s_id s) ->
  settled h' v (upd fr (s_id s) v) W.
Proof.
  intros [H1 H2 H3 H4] B Hs Hf Hn. constructor; auto.
  - intros x Hx. destruct (H2 x Hx). split; eapply before_in; eauto.
  - intros n Hi. unfold upd. destruct (Hs n Hi) as [Hi'| ->].
    + destruct (N.eqb_spec (s_id n) (s_id s)) as [E|_]; [exfalso; eapply Hn; eauto|auto].
    + rewrite N.eqb_refl. exists (whead W). split; auto. apply acc_yes; auto. intros x Hx.
      destruct (H2 x Hx). apply Hf; auto.
Qed.

(** A transaction's value joins the settled ones. *)
Lemma settled_push m h h' v fr W q l : cinv m h -> settled h v fr W -> before h h' ->
  (forall n, In n (snaps_of h') -> In n (snaps_of h)) ->
  begun h q -> ~ finished h q -> finished h' q ->
  settled h' (match l with XPlace => v | _ => xval l end) fr (pushl q l W).
Proof.
  intros C S B Hs Hb Hn Hf. pose proof S as [H1 H2 H3 H4].
  assert (Hmain : l <> XPlace -> settled h' (xval l) fr (mkUxr q l :: W)).
  { intros _. constructor; auto; [discriminate|..].
    - intros x. rewrite nonbottom_cons by auto. cbn. intros [<-|Hx].
      + split; auto. eapply before_in; eauto.
      + destruct (H2 x Hx). split; eapply before_in; eauto.
    - intros s Hi. apply Hs in Hi. rewrite acc_cons by auto. cbn [ux_xid ux_xr].
      assert (E : fs s q = false).
      { unfold fs. destruct (N.ltb_spec q (s_id s)); auto. cbn. apply negb_false_iff, in_live_list_iff.
        apply (c_slive _ _ C); auto. }
      rewrite E. auto. }
  destruct l; cbn [pushl]; try (apply Hmain; discriminate).
  eapply settled_mono; eauto.
Qed.

(** * The lock holder *)

Definition ents_ok (ls : list (option (option val))) (lv : list level) : Prop :=
  Forall2 (fun w l => w <> None -> lv_ents l <> []) ls lv.

Record holder_ok (St : list uxr -> Prop) (ls : list (option (option val))) (I : arow) (t : rtxn) : Prop := {
  h_ents : ents_ok ls (t_levels t);
  h_fresh : forall C, ar_x I = t_root t :: C -> forall c, In c C -> c <= t_last t;
  h_phase : match t_phase t with
    | PActive => St (ar_w (turn (chain t) I)) /\ ar_l (turn (chain t) I) = rev (map tox ls)
    | PAbort n => St (ar_w (turn (chain t) I)) /\ exists w ls' z, ls = w :: ls'
        /\ ar_l (turn (chain t) I) = rev (map tox ls') ++ [z] /\ (z = tox w \/ z = XPlace) /\ (n = O -> z = XPlace)
    | PCommit _ => exists w W0, ls = [w] /\ St W0 /\ full (turn (chain t) I) = pushl (t_root t) (tox w) W0
    end
}.

Lemma holder_mono (St St' : list uxr -> Prop) ls I t : (forall W, St W -> St' W) -> holder_ok St ls I t -> holder_ok St' ls I t.
Proof.
  intros H [E F P]. constructor; auto. destruct (t_phase t).
  - destruct P; auto.
  - destruct P as (w & W0 & ? & ? & ?). exists w, W0. auto.
  - destruct P as [? P]. auto.
Qed.

Record sync0 (h : list event) (sp : rspec) (ts : list rtxn) (lk : option txnid) (I : arow) : Prop := {
  q_awf : awf I;
  q_len : forall t, In t ts -> length (sp_levels sp (t_root t)) = length (t_levels t);
  q_other : forall t, In t ts -> lk <> Some (t_root t) -> forall w, In w (sp_levels sp (t_root t)) -> w = None;
  q_none : lk = None -> settled h (sp_val sp) (sp_frozen sp) (full I);
  q_hold : forall t, In t ts -> lk = Some (t_root t) ->
     holder_ok (settled h (sp_val sp) (sp_frozen sp)) (sp_levels sp (t_root t)) I t
}.
Arguments q_awf {_ _ _ _ _}. Arguments q_len {_ _ _ _ _}. Arguments q_other {_ _ _ _ _}.
Arguments q_none {_ _ _ _ _}. Arguments q_hold {_ _ _ _ _}.

Definition sync (y : rsys) : Prop :=
  sync0 (ms_hist (y_ms y)) (spec_of (y_trace y)) (y_txns y) (y_lock y) (ideal (y_msgs y) (length (y_msgs y))).

(** Nothing but the history changes. *)
Lemma sync_quiet h h' sp sp' ts lk I : sync0 h sp ts lk I -> sp_levels sp' = sp_levels sp ->
  (forall W, settled h (sp_val sp) (sp_frozen sp) W -> settled h' (sp_val sp') (sp_frozen sp') W) ->
  sync0 h' sp' ts lk I.
Proof.
  intros [A L O N H] El Hs. constructor; rewrite ?El; auto.
  intros t Ht Hl. eapply holder_mono; [exact Hs|]. auto.
Qed.

(** One transaction changes. *)
Lemma sync_set h sp sp' ts lk I I' t : sync0 h sp ts lk I -> awf I' ->
  sp_val sp' = sp_val sp -> sp_frozen sp' = sp_frozen sp ->
  (forall r, r <> t_root t -> sp_levels sp' r = sp_levels sp r) ->
  length (sp_levels sp' (t_root t)) = length (t_levels t) ->
  (lk <> Some (t_root t) -> forall w, In w (sp_levels sp' (t_root t)) -> w = None) ->
  (lk <> Some (t_root t) -> I' = I) ->
  (lk = Some (t_root t) -> holder_ok (settled h (sp_val sp) (sp_frozen sp)) (sp_levels sp' (t_root t)) I' t) ->
  sync0 h sp' (set_txn t ts) lk I'.
Proof.
  intros S A Ev Ef El Hlen Ho HI Hh. constructor; auto.
  - intros a Ha. apply set_txn_in in Ha. destruct Ha as [->|[Ha Hn]]; auto. rewrite El by auto. apply (q_len S); auto.
  - intros a Ha. apply set_txn_in in Ha. destruct Ha as [->|[Ha Hn]]; auto. rewrite El by auto. apply (q_other S); auto.
  - intros E. rewrite HI by congruence. rewrite Ev, Ef. apply (q_none S). auto.
  - intros a Ha E. rewrite Ev, Ef. apply set_txn_in in Ha. destruct Ha as [->|[Ha Hn]]; auto.
    rewrite El by auto. rewrite HI by congruence. apply (q_hold S); auto.
Qed.

Lemma upd_same {A} (f : txnid -> A) x a : upd f x a x = a.
Proof. unfold upd. rewrite N.eqb_refl. auto. Qed.
Lemma upd_other {A} (f : txnid -> A) x a z : z <> x -> upd f x a z = f z.
Proof. unfold upd. intros H. destruct (N.eqb_spec z x); [tauto|auto]. Qed.

Lemma ideal_snoc ms m h : ideal (ms ++ [(m, h)]) (length (ms ++ [(m, h)])) = astep (ideal ms (length ms)) m.
Proof.
  rewrite app_length. cbn [length]. rewrite Nat.add_1_r.
  rewrite (ideal_S _ (length ms) m h) by (rewrite nth_error_app2, Nat.sub_diag; auto).
  rewrite ideal_ext by auto. auto.
Qed.

(** The last sender of the ideal row. *)
Lemma ideal_src ms now clo : loginv ms now clo -> forall k, (k <= length ms)%nat ->
  forall x X, ar_x (ideal ms k) = x :: X -> src ms k x.
Proof.
  intros L. induction k as [|k IH]; intros Hk x X E; [discriminate|].
  destruct (nth_error ms k) as [[m h]|] eqn:Em; [|apply nth_error_None in Em; lia].
  rewrite (ideal_S ms k m h Em) in E.
  assert (Hor : astep (ideal ms k) m = ideal ms k \/ (ar_x (astep (ideal ms k) m) = rm_xids m /\ non_opt (rm_kind m) = true)).
  { unfold astep. destruct (rm_kind m) as [v|v| | | | |f]; cbn; auto; try (right; rewrite turn_x; auto; fail).
    - right. destruct (is_ins _); cbn; rewrite turn_x; auto.
    - destruct (f _) as [[w|]|]; auto; right; cbn; rewrite turn_x; auto. }
  destruct Hor as [Ei|[Ei Hn]].
  - rewrite Ei in E. apply src_S. eapply IH; eauto. lia.
  - exists k. split; auto. exists m, h. split; auto. split; auto. rewrite <- Ei, E. cbn. apply N.eqb_refl.
Qed.

(** * Steps *)

Local Arguments ideal : simpl never.

Lemma fs_new m h s : cinv m h -> (forall x, In x (s_live s) -> ~ finished h x) ->
  m_last m < s_id s -> forall x, begun h x -> finished h x -> fs s x = true.
Proof.
  intros C Hl Hs x Hb Hf. unfold fs. pose proof (cinv_begun_le _ _ _ C Hb).
  destruct (N.ltb_spec x (s_id s)); [|lia]. cbn. apply negb_true_iff, in_live_list_false. intros Hi. eapply Hl; eauto.
Qed.

Lemma snap_old m h n : cinv m h -> In n (snaps_of h) -> s_id n <= m_last m.
Proof. intros C H. apply (c_last _ _ C), (c_snap_id _ _ C). auto. Qed.

Section Steps.
Context (y : rsys) (T : tinv y) (A : ainv y) (S : sync y).
Let h := ms_hist (y_ms y).
Let sp := spec_of (y_trace y).
Let I := ideal (y_msgs y) (length (y_msgs y)).
Let C : cinv (ms_mgr (y_ms y)) h := i_c _ (t_m T).

Lemma not_last t : In t (y_txns y) -> y_lock y <> Some (t_root t) -> hd_eq (ar_x I) (chain t) = false.
Proof.
  intros Ht Hl. destruct (hd_eq (ar_x I) (chain t)) eqn:E; auto. exfalso.
  destruct (k_chain _ _ _ (t_all T t Ht)) as (D & ED & _). rewrite ED in E.
  destruct (hd_eq_cons _ _ _ E) as (X & EX).
  pose proof (ideal_src _ _ _ (a_log A) _ (Nat.le_refl _) _ _ EX) as Hs.
  destruct (t_src T _ Hs) as [Hf|Hf]; [|tauto]. eapply unfinished; eauto.
Qed.

Lemma chain_ne t : In t (y_txns y) -> chain t <> [].
Proof. intros Ht. destruct (k_chain _ _ _ (t_all T t Ht)) as (D & ED & _). rewrite ED. discriminate. Qed.

Lemma tox_none ls : (forall w, In w ls -> w = None) -> rev (map tox ls) = repeat XPlace (length ls).
Proof.
  intros H. assert (E : map tox ls = repeat XPlace (length ls)).
  { induction ls as [|w ls IH]; auto. cbn. rewrite (H w) by (left; auto). cbn. f_equal. apply IH.
    intros; apply H; right; auto. }
  rewrite E. clear. induction (length ls) as [|n IH]; auto. cbn [repeat rev]. rewrite IH, <- repeat_snoc. auto.
Qed.

Lemma lock_holder t : In t (y_txns y) -> y_lock y = None \/ y_lock y = Some (t_root t) -> t_phase t = PActive ->
  holder_ok (settled h (sp_val sp) (sp_frozen sp)) (sp_levels sp (t_root t)) I t.
Proof.
  intros Ht [Hl|Hl] Hp; [|apply (q_hold S); auto].
  assert (Hn : y_lock y <> Some (t_root t)) by congruence.
  pose proof (not_last t Ht Hn) as Hh. pose proof (q_other S t Ht Hn) as Ho. pose proof (q_len S t Ht) as Hlen.
  constructor.
  - unfold ents_ok. fold sp in Ho, Hlen. revert Ho Hlen. generalize (sp_levels sp (t_root t)) (t_levels t).
    intros ls lv Ho. revert lv. induction ls as [|w ls IH]; intros [|l lv] Hlen; try discriminate; constructor.
    + intros Hw. exfalso. apply Hw. apply Ho. left. auto.
    + apply IH; auto. intros; apply Ho; right; auto.
  - intros D E. exfalso. destruct (k_chain _ _ _ (t_all T t Ht)) as (D' & ED & _).
    rewrite E, ED in Hh. cbn in Hh. rewrite N.eqb_refl in Hh. discriminate.
  - rewrite Hp. unfold turn. rewrite Hh. cbn [ar_w ar_l]. split; [apply (q_none S); auto|].
    rewrite tox_none by auto. rewrite chain_len. f_equal. symmetry. exact Hlen.
Qed.

(** The lock is taken. *)
Lemma sync_lock t : In t (y_txns y) -> y_lock y = None \/ y_lock y = Some (t_root t) -> t_phase t = PActive ->
  sync0 h sp (y_txns y) (Some (t_root t)) I.
Proof.
  intros Ht Hl Hp. constructor.
  - apply S.
  - apply S.
  - intros a Ha Hn. destruct (N.eq_dec (t_root a) (t_root t)) as [E|E]; [congruence|].
    apply (q_other S); auto. destruct Hl; congruence.
  - discriminate.
  - intros a Ha E. assert (a = t).
    { pose proof (find_txn_unique (t_root t) _ _ (roots_nd _ T) Ht eq_refl).
      pose proof (find_txn_unique (t_root t) _ a (roots_nd _ T) Ha ltac:(congruence)). congruence. }
    subst a. apply lock_holder; auto.
Qed.
End Steps.

Lemma awf_put r a : awf a -> ar_x a <> [] -> awf (aput r a).
Proof.
  intros [H1 H2] Hx. split; auto. cbn. rewrite setlast_len; auto. intros E. rewrite E in H2. destruct (ar_x a); [auto|discriminate].
Qed.

(** What one write does to the levels. *)
Lemma write_levels I Y w ls b : Y <> [] -> awf I -> ls <> [] -> ar_l (turn Y I) = rev (map tox ls) ->
  xval (whead (ar_w (turn Y I))) = b ->
  let I' := astep I (mkRmsg (wmsg w) Y) in
  awf I' /\ ar_w (turn Y I') = ar_w (turn Y I) /\ ar_l (turn Y I') = rev (map tox (set_top (wval w (sees ls b)) ls))
  /\ (ar_x I' = Y \/ I' = I).
Proof.
  intros HY HI Hls El Eb. cbv zeta. pose proof (turn_awf Y I HI) as HB.
  assert (Ec : xval (cur (turn Y I)) = sees ls b).
  { unfold cur. rewrite El. apply sees_resv. auto. }
  assert (Ec' : xval (cur I) = sees ls b) by (rewrite <- Ec, cur_turn; auto).
  assert (HxB : ar_x (turn Y I) = Y) by apply turn_x.
  assert (Hput : forall r v, r = tox (Some v) -> awf (aput r (turn Y I)) /\
     ar_w (turn Y (aput r (turn Y I))) = ar_w (turn Y I)
     /\ ar_l (turn Y (aput r (turn Y I))) = rev (map tox (set_top (Some v) ls))
     /\ (ar_x (aput r (turn Y I)) = Y \/ aput r (turn Y I) = I)).
  { intros r v ->. assert (Hp : awf (aput (tox (Some v)) (turn Y I))) by (apply awf_put; auto; congruence).
    assert (Et : turn Y (aput (tox (Some v)) (turn Y I)) = aput (tox (Some v)) (turn Y I)).
    { rewrite <- HxB at 1. change (ar_x (turn Y I)) with (ar_x (aput (tox (Some v)) (turn Y I))).
      apply turn_same; auto. cbn. congruence. }
    rewrite Et. split; auto. split; auto. split; [|left; auto]. cbn [aput ar_l]. rewrite El.
    destruct ls as [|l ls]; [congruence|]. cbn [map rev set_top]. rewrite setlast_snoc. auto. }
  assert (Hturn : awf (turn Y I) /\ ar_w (turn Y (turn Y I)) = ar_w (turn Y I)
     /\ ar_l (turn Y (turn Y I)) = rev (map tox ls) /\ (ar_x (turn Y I) = Y \/ turn Y I = I)).
  { rewrite turn_turn by auto. auto. }
  unfold astep. cbn [rm_kind rm_xids]. destruct w as [v|v| |f]; cbn [wmsg wval].
  - apply (Hput (XIns v) (Some v)). auto.
  - rewrite <- Ec. unfold xval. destruct (cur (turn Y I)); cbn [is_ins set_top].
    + exact Hturn.
    + apply (Hput (XIns v) (Some v)). auto.
    + apply (Hput (XIns v) (Some v)). auto.
  - apply (Hput XDel None). auto.
  - rewrite Ec'. destruct (f (sees ls b)) as [[v|]|]; cbn [set_top].
    + apply (Hput (XIns v) (Some v)). auto.
    + apply (Hput XDel None). auto.
    + auto.
Qed.

Theorem sync_step y o y' : tinv y -> ainv y -> sync y -> rop_legal y o -> ids_left (y_ms y) ->
  rstep y o = Some y' -> sync y'.
Proof.
  intros T A S Hleg Hids E. pose proof (t_m T) as M. pose proof (i_c _ M) as C.
  destruct o as [ro rec|r|s|r|r|r|r w|r|r|r|r|r|r|r| |i|j s|j s]; cbn [rstep rop_legal] in *.
  - (* begin *)
    destruct (minv_step _ (MBegin ro rec) M Logic.I Hids) as (ms' & Em & M' & _). rewrite Em in E.
    pose proof (mstep_later _ _ _ Em) as (B & _). destruct (begin_fx _ _ _ _ Em) as (x & os & Er & Ec & Eh & Ex & Es).
    rewrite Er, rev_app_distr in E. cbn [rev app r_xid r_snap] in E.
    assert (Hx : forall t, In t (y_txns y) -> t_root t <> x).
    { intros t Ht. assert (Hr : In (t_root t) (map r_xid (ms_roots (y_ms y)))) by (rewrite <- (t_roots T); apply in_map; auto).
      apply in_map_iff in Hr. destruct Hr as (rt & Et & Hrt). destruct (i_roots _ M rt Hrt) as (Hb & _).
      apply begin_in_ids in Hb. rewrite Et in Hb. apply (c_last _ _ C) in Hb. lia. }
    set (sp := spec_of (y_trace y)) in *.
    assert (Hlk : y_lock y <> Some x).
    { intros Hl. apply (t_lock T) in Hl. apply in_map_iff in Hl. destruct Hl as (t & Et & Ht). eapply Hx; eauto. }
    assert (Hgo : forall sp', sp_levels sp' = upd (sp_levels sp) x [None] ->
       (forall W, settled (ms_hist (y_ms y)) (sp_val sp) (sp_frozen sp) W ->
                  settled (ms_hist ms') (sp_val sp') (sp_frozen sp') W) ->
       sync0 (ms_hist ms') sp' (y_txns y ++ [mkRtxn x [mkLevel x []] TXNID_NONE PActive]) (y_lock y)
             (ideal (y_msgs y) (length (y_msgs y)))).
    { intros sp' El Hs. constructor; rewrite ?El.
      - apply S.
      - intros t Ht. apply in_app_iff in Ht. destruct Ht as [Ht|[<-|[]]]; [|cbn; rewrite upd_same; reflexivity].
        rewrite upd_other by auto. apply (q_len S). auto.
      - intros t Ht. apply in_app_iff in Ht. destruct Ht as [Ht|[<-|[]]].
        + rewrite upd_other by auto. apply (q_other S). auto.
        + cbn. rewrite upd_same. intros _ w [<-|[]]. auto.
      - intros Hl. apply Hs. apply (q_none S). auto.
      - intros t Ht Hl. apply in_app_iff in Ht. destruct Ht as [Ht|[<-|[]]]; [|cbn in Hl; tauto].
        rewrite upd_other by auto. eapply holder_mono; [exact Hs|]. apply (q_hold S); auto. }
    destruct os as [s|]; apply Some_inj in E; subst y'; unfold sync; cbn; apply Hgo; auto.
    + intros W HW. cbn [spec_step sp_val sp_frozen]. pose proof (i_c _ M') as C'. cbn in Eh.
      set (n := mkSnap (s_id s) (live_of (EBegin x ro :: ms_hist (y_ms y)))).
      specialize (Es s eq_refl).
      apply (settled_snap (ms_hist (y_ms y)) (ms_hist ms') (sp_val sp) (sp_frozen sp) W n); auto.
      * intros k. rewrite Eh. cbn [snaps_of]. intros Hk. apply in_app_iff in Hk. destruct Hk as [|[<-|[]]]; auto.
      * apply (fs_new (ms_mgr (y_ms y))); auto; [|cbn; lia]. cbn [n s_live live_of]. intros z Hz.
        assert (Hz' : In z (live_of (ms_hist (y_ms y))) \/ z = x).
        { destruct ro; auto. apply in_app_iff in Hz. destruct Hz as [|[<-|[]]]; auto. }
        destruct Hz' as [Hz'| ->]; [apply (c_live_iff _ _ C) in Hz'; tauto|].
        intros Hf. destruct (c_fin _ _ C x Hf) as (ro' & Hb). apply begin_in_ids in Hb. apply (c_last _ _ C) in Hb. lia.
      * intros k Hk. pose proof (snap_old _ _ _ C Hk). cbn. lia.
    + intros W HW. cbn in Eh. eapply settled_mono; eauto. rewrite Eh. cbn. auto.
  - (* child snapshot *)
    destruct Hleg as (t & Hf & Hp). destruct (find_ok _ T _ _ Hf) as (Ht & Hr & K & rt & Hrt & _).
    destruct (minv_step _ (MChildSnap r) M ltac:(cbn; congruence) Hids) as (ms' & Em & M' & _). rewrite Em in E.
    pose proof (mstep_later _ _ _ Em) as (B & _). destruct (childsnap_fx _ _ _ Em) as (s & Er & Ec & Eh & Es).
    rewrite Ec, rev_app_distr in E. cbn [rev app snd] in E. apply Some_inj in E. subst y'. unfold sync. cbn.
    eapply sync_quiet; [exact S|reflexivity|]. intros W HW. cbn [spec_step sp_val sp_frozen].
    set (n := mkSnap (s_id s) (live_of (ms_hist (y_ms y)))).
    apply (settled_snap (ms_hist (y_ms y)) (ms_hist ms') _ _ W n); auto.
    + intros k. rewrite Eh. cbn [snaps_of]. intros Hk. apply in_app_iff in Hk. destruct Hk as [|[<-|[]]]; auto.
    + apply (fs_new (ms_mgr (y_ms y))); auto; [|cbn; lia]. cbn [n s_live]. intros z Hz.
      apply (c_live_iff _ _ C) in Hz. tauto.
    + intros k Hk. pose proof (snap_old _ _ _ C Hk). cbn. lia.
  - (* child snapshot ends *)
    destruct (minv_step _ (MChildSnapEnd s) M Hleg Hids) as (ms' & Em & M' & _). rewrite Em in E.
    pose proof (mstep_later _ _ _ Em) as (B & _). destruct (childend_fx _ _ _ Em) as (Er & Ec & Eh).
    apply Some_inj in E. subst y'. unfold sync. cbn. eapply sync_quiet; [exact S|reflexivity|].
    intros W HW. eapply settled_mono; eauto. rewrite Eh. cbn. intros k Hk. apply filter_In in Hk. tauto.
  - (* touch *)
    destruct Hleg as [Ha Hw].
    destruct (minv_step _ (MWrite r) M Hw Hids) as (ms' & Em & M' & _). rewrite Em in E.
    pose proof (mstep_later _ _ _ Em) as (B & _). cbn [mstep] in Em. apply Some_inj in Em. subst ms'.
    apply Some_inj in E. subst y'. unfold sync. cbn. eapply sync_quiet; [exact S|reflexivity|].
    intros W HW. eapply settled_mono; eauto.
  - (* child begins *)
    destruct Hleg as (t & Hf & Hp & Hlen & Hl). rewrite Hf in E. apply Some_inj in E. subst y'.
    destruct (find_ok _ T _ _ Hf) as (Ht & Hr & K & _). unfold sync. cbn.
    assert (Hc : t_last t < next_child t /\ next_child t <> t_root t).
    { unfold next_child. destruct (N.eqb_spec (t_last t + 1) (t_root t)); lia. }
    destruct Hc as (Hc1 & Hc2). apply (sync_set _ _ _ _ _ _ _ (mkRtxn r _ _ _) S); auto.
    + apply S.
    + intros q Hq. cbn in *. apply upd_other. auto.
    + cbn. rewrite upd_same. cbn. f_equal. rewrite <- Hr. apply (q_len S). auto.
    + cbn. rewrite upd_same. intros Hn w0 [<-|Hw]; auto. rewrite <- Hr in *. eapply (q_other S); eauto.
    + cbn [t_root]. intros Hlk. rewrite <- Hr in Hlk. destruct (q_hold S t Ht Hlk) as [He Hfr Hph]. rewrite Hr in *.
      cbn [spec_step sp_levels]. rewrite upd_same.
      constructor; cbn [t_levels t_root t_last t_phase].
      * constructor; [cbn; congruence|exact He].
      * intros D ED c Hi. specialize (Hfr D ED c Hi). lia.
      * rewrite Hp in *. destruct Hph as [Hst El].
        assert (Ech : forall ph, chain (mkRtxn r (mkLevel (next_child t) [] :: t_levels t) (next_child t) ph)
                      = chain t ++ [next_child t]) by reflexivity.
        rewrite Ech. destruct (turn_snoc (chain t) (next_child t) (ideal (y_msgs y) (length (y_msgs y)))) as [E1 E2].
        { apply (chain_ne y T). auto. }
        { apply S. }
        { intros Hh Hi. destruct (k_chain _ _ _ K) as (D & ED & _). rewrite ED in Hh.
          destruct (hd_eq_cons _ _ _ Hh) as (X & EX). rewrite EX in Hi. rewrite Hr in *. destruct Hi as [Hi|Hi]; [congruence|].
          specialize (Hfr X EX _ Hi). lia. }
        rewrite E1, E2, El. split; auto.
  - (* read lock *)
    destruct Hleg as [(t & Hf & Hp) Hlk]. apply Some_inj in E. subst y'.
    destruct (find_ok _ T _ _ Hf) as (Ht & Hr & K & _). unfold sync. cbn. rewrite <- Hr in *.
    apply (sync_lock y T A S); auto.
  - (* write *)
    destruct Hleg as ((t & Hf & Hp) & Hw & Hlk & Hwk). destruct (find_ok _ T _ _ Hf) as (Ht & Hr & K & _).
    destruct (minv_step _ (MWrite r) M Hw Hids) as (ms' & Em & M' & _). rewrite Em, Hf in E.
    pose proof (mstep_later _ _ _ Em) as (B & _). cbn [mstep] in Em. apply Some_inj in Em. subst ms'.
    apply Some_inj in E. subst y'. unfold sync. cbn [y_ms y_txns y_lock y_msgs y_copies y_obs y_trace note send lock with_txn with_ms ms_hist].
    rewrite ideal_snoc. set (I := ideal (y_msgs y) (length (y_msgs y))) in *.
    set (h' := EWrite r :: ms_hist (y_ms y)) in *. set (sp := spec_of (y_trace y)) in *.
    assert (Hq : sync0 h' sp (y_txns y) (Some r) I).
    { eapply sync_quiet; [rewrite <- Hr; apply (sync_lock y T A S); auto; rewrite Hr; exact Hlk|reflexivity|].
      intros W HW. eapply settled_mono; eauto. }
    destruct (q_hold Hq t Ht ltac:(congruence)) as [He Hfr Hph]. rewrite Hp in Hph. destruct Hph as [Hst El].
    fold sp in He, El. rewrite Hr in *.
    assert (Hls : sp_levels sp r <> []).
    { intros E0. rewrite E0 in He. inversion He as [E1 E2|]. destruct (k_chain _ _ _ K) as (D & ED & _).
      unfold chain in ED. rewrite <- E2 in ED. discriminate. }
    destruct (write_levels I (chain t) w (sp_levels sp r) (sp_val sp)) as (Ha' & Ew' & El' & Hx'); auto.
    { apply (chain_ne y T). auto. }
    { apply Hq. }
    { apply (e_val _ _ _ _ Hst). }
    assert (Hset : forall v ls, length (set_top v ls) = length ls) by (intros [v|] [|? ?]; reflexivity).
    cbn [spec_of spec_step]. fold sp.
    apply (sync_set _ _ _ _ _ _ _ (mkRtxn r _ _ _) Hq); auto; cbn [t_root t_levels sp_levels sp_val sp_frozen].
    + intros q Hne. apply upd_other. auto.
    + rewrite upd_same, Hset. rewrite <- (map_length lv_xid), push_ent_chain, map_length.
      rewrite <- Hr. apply (q_len S). auto.
    + congruence.
    + congruence.
    + intros _. rewrite upd_same. constructor; cbn [t_levels t_root t_last t_phase].
      * destruct (sp_levels sp r) as [|l0 ls0]; [congruence|]. inversion He as [|? l1 ? lv1 H1 H2 E0 E1]; subst.
        cbn [push_ent]. destruct (wval w (sees (l0 :: ls0) (sp_val sp))); cbn [set_top]; constructor; auto; cbn; discriminate.
      * intros D ED c Hi. destruct Hx' as [Hx'|Hx'].
        -- destruct (k_chain _ _ _ K) as (D' & ED' & HD). rewrite Hx', ED' in ED. injection ED as _ ->.
           destruct (HD c Hi). auto.
        -- rewrite Hx' in ED. eauto.
      * rewrite Hp. assert (Ech : forall ph, chain (mkRtxn r (push_ent (went w) (t_levels t)) (t_last t) ph) = chain t).
        { intros ph. unfold chain. cbn [t_levels]. rewrite push_ent_chain. auto. }
        rewrite Ech, Ew', El'. auto.
  - (* child commits *)
    destruct Hleg as (t & Hf & Hp & Hlen). rewrite Hf in E. destruct (find_ok _ T _ _ Hf) as (Ht & Hr & K & _).
    destruct (t_levels t) as [|c [|p ls]] eqn:Elv; [cbn in Hlen; lia|cbn in Hlen; lia|].
    apply Some_inj in E. subst y'. unfold sync. cbn [merge_ents y_ms y_txns y_lock y_msgs y_copies y_obs y_trace note with_txn].
    cbn [spec_of spec_step]. set (sp := spec_of (y_trace y)) in *.
    assert (Hsl : exists a b ss, sp_levels sp r = a :: b :: ss /\ length ss = length ls).
    { pose proof (q_len S t Ht) as Hl. fold sp in Hl. rewrite Hr, Elv in Hl.
      destruct (sp_levels sp r) as [|a [|b ss]]; try discriminate. exists a, b, ss. split; auto. cbn in Hl. lia. }
    destruct Hsl as (a & b & ss & Esl & Hss).
    apply (sync_set _ _ _ _ _ _ _ (mkRtxn r _ _ _) S); auto; cbn [t_root t_levels sp_levels sp_val sp_frozen]; fold sp.
    + apply S.
    + intros q Hne. apply upd_other. auto.
    + rewrite upd_same, Esl. destruct a; cbn; lia.
    + rewrite upd_same. intros Hn w0. rewrite <- Hr in *. pose proof (q_other S t Ht Hn) as Ho. fold sp in Ho.
      rewrite Esl in *. destruct a; cbn; intros Hi; apply Ho; cbn; tauto.
    + intros Hlk. rewrite <- Hr in Hlk. destruct (q_hold S t Ht Hlk) as [He Hfr Hph]. fold sp in He, Hph.
      rewrite Hr in *. rewrite upd_same, Esl in *. rewrite Hp in *. destruct Hph as [Hst El].
      rewrite Elv in He. inversion He as [|? ? ? ? H1 H2 E0 E1]; subst. inversion H2 as [|? ? ? ? H3 H4 E0 E1]; subst.
      constructor; cbn [t_levels t_root t_last t_phase].
      * destruct a as [a|]; constructor; auto; cbn [lv_ents]; intros Hn E0.
        -- apply app_eq_nil in E0. destruct E0 as [E0 _]. apply H1; auto.
        -- apply app_eq_nil in E0. destruct E0 as [_ E0]. apply H3; auto.
      * auto.
      * assert (Ech : chain t = rev (map lv_xid (p :: ls)) ++ [lv_xid c]) by (unfold chain; rewrite Elv; reflexivity).
        assert (Ech' : forall e ph, chain (mkRtxn (t_root t) (mkLevel (lv_xid p) e :: ls) (t_last t) ph) = rev (map lv_xid (p :: ls))) by reflexivity.
        rewrite Ech'. rewrite Ech in *.
        destruct (turn_merge (rev (map lv_xid (p :: ls))) (lv_xid c) (ideal (y_msgs y) (length (y_msgs y)))) as (L0 & p0 & q0 & E1 & E2 & E3).
        { cbn. destruct (rev (map lv_xid ls)); discriminate. }
        { apply S. }
        rewrite E3 in Hst. rewrite E1 in El. split; auto. rewrite E2.
        cbn [map rev] in El. rewrite <- app_assoc in El. cbn [app] in El. apply app_last2 in El. destruct El as (-> & -> & ->).
        destruct a as [[v|]|]; cbn; auto.
  - (* abort starts *)
    destruct Hleg as (t & Hf & Hp). rewrite Hf in E. destruct (find_ok _ T _ _ Hf) as (Ht & Hr & K & _).
    destruct (t_levels t) as [|l ls] eqn:Elv; [discriminate|]. cbn [hd_error] in E.
    apply Some_inj in E. subst y'. unfold sync. cbn [y_ms y_txns y_lock y_msgs y_copies y_obs y_trace note with_txn].
    set (sp := spec_of (y_trace y)) in *.
    apply (sync_set _ _ _ _ _ _ _ (mkRtxn r _ _ _) S); auto; cbn [t_root t_levels]; fold sp; try rewrite <- Hr.
    + apply S.
    + rewrite <- Elv. apply (q_len S). auto.
    + apply (q_other S). auto.
    + intros Hlk. destruct (q_hold S t Ht Hlk) as [He Hfr Hph]. fold sp in He, Hph. rewrite Hp in Hph.
      destruct Hph as [Hst El]. rewrite Elv in He. inversion He as [|w l' ls' lv' H1 H2 E0 E1]; subst.
      constructor; cbn [t_levels t_root t_last t_phase]; auto.
      * constructor; auto.
      * assert (Ech : forall ph, chain (mkRtxn (t_root t) (l :: ls) (t_last t) ph) = chain t) by (intros; unfold chain; rewrite Elv; auto).
        rewrite Ech. split; auto. exists w, ls', (tox w). split; auto. split; [rewrite El, <- E0; reflexivity|].
        split; auto. intros E2. destruct w as [w|]; auto. exfalso. apply H1; [discriminate|]. destruct (lv_ents l); [auto|discriminate].
  - (* abort message *)
    destruct Hleg as (t & n & Hf & Hp). rewrite Hf, Hp in E. destruct (find_ok _ T _ _ Hf) as (Ht & Hr & K & _).
    apply Some_inj in E. subst y'. unfold sync. cbn [y_ms y_txns y_lock y_msgs y_copies y_obs y_trace note send with_txn].
    rewrite ideal_snoc. set (sp := spec_of (y_trace y)) in *. set (I := ideal (y_msgs y) (length (y_msgs y))) in *.
    pose proof (k_phase _ _ _ K) as Hph. unfold phase_ok in Hph. rewrite Hp in Hph. destruct Hph as (l & ls & Elv & Hle).
    assert (Hlk : y_lock y = Some (t_root t)).
    { apply (k_ents _ _ _ K l); [rewrite Elv; left; auto|]. intros E0. rewrite E0 in Hle. cbn in Hle. lia. }
    assert (HIa : awf I) by apply S.
    pose proof (chain_ne y T t Ht) as Hne.
    assert (HB : awf (aput XPlace (turn (chain t) I))).
    { apply awf_put; [apply turn_awf; auto|rewrite turn_x; auto]. }
    assert (Eas : astep I (mkRmsg KAbort (chain t)) = aput XPlace (turn (chain t) I)) by reflexivity.
    rewrite Eas. rewrite <- Hr.
    apply (sync_set _ _ _ _ _ _ _ (mkRtxn (t_root t) _ _ _) S); auto; cbn [t_root t_levels]; fold sp.
    + apply (q_len S). auto.
    + congruence.
    + congruence.
    + intros _. destruct (q_hold S t Ht Hlk) as [He Hfr Hph]. fold sp in He, Hph. rewrite Hp in Hph.
      destruct Hph as [Hst (w & ls' & z & E0 & El & Hz & _)].
      constructor; cbn [t_levels t_root t_last t_phase]; auto.
      * cbn. rewrite turn_x. intros D ED c Hi. destruct (k_chain _ _ _ K) as (D' & ED' & HD). rewrite ED' in ED.
        injection ED as ->. apply HD. auto.
      * assert (Ech : forall ph, chain (mkRtxn (t_root t) (t_levels t) (t_last t) ph) = chain t) by reflexivity.
        rewrite Ech.
        assert (Et : turn (chain t) (aput XPlace (turn (chain t) I)) = aput XPlace (turn (chain t) I)).
        { rewrite <- (turn_x (chain t) I) at 1. change (ar_x (turn (chain t) I)) with (ar_x (aput XPlace (turn (chain t) I))).
          apply turn_same; auto. cbn. rewrite turn_x. auto. }
        rewrite Et. cbn [aput ar_w ar_l]. split; auto. exists w, ls', XPlace. fold I in El. rewrite El, setlast_snoc. auto.
  - (* abort done *)
    destruct Hleg as (t & Hf & Hp & Hor). rewrite Hf in E. destruct (find_ok _ T _ _ Hf) as (Ht & Hr & K & _).
    pose proof (k_phase _ _ _ K) as Hph. unfold phase_ok in Hph. rewrite Hp in Hph. destruct Hph as (l & ls & Elv & _).
    rewrite Elv in E. destruct ls as [|l2 ls].
    + destruct Hor as [Hor|Hno]; [rewrite Elv in Hor; cbn in Hor; lia|].
      destruct (retire_ok y r T A Hids) as (y1 & Ey & T' & A' & Em & E1 & E2 & E3 & E4 & E5 & E6); auto.
      { rewrite <- Hr. apply in_map. auto. }
      rewrite Ey in E. apply Some_inj in E. subst y'. unfold sync. cbn [y_ms y_txns y_lock y_msgs y_copies y_obs y_trace note].
      rewrite E1, E2, E3, E6. cbn [spec_of spec_step]. set (sp := spec_of (y_trace y)) in *.
      pose proof (mstep_later _ _ _ Em) as (B & _). destruct (finish_fx _ _ _ Em) as (_ & _ & rt & _ & _ & Eh).
      assert (Hmono : forall W, settled (ms_hist (y_ms y)) (sp_val sp) (sp_frozen sp) W ->
                 settled (ms_hist (y_ms y1)) (sp_val sp) (sp_frozen sp) W).
      { intros W HW. eapply settled_mono; eauto. rewrite Eh. intros k. destruct (r_snap rt); cbn; auto.
        intros Hk. apply filter_In in Hk. tauto. }
      constructor; cbn [sp_levels sp_val sp_frozen].
      * apply S.
      * intros a Ha. apply del_txn_in in Ha. destruct Ha as [Ha Hn]. rewrite upd_other by auto. apply (q_len S). auto.
      * intros a Ha. apply del_txn_in in Ha. destruct Ha as [Ha Hn]. rewrite upd_other by auto.
        intros Hl. apply (q_other S); auto. intros Hc. apply Hl. rewrite Hc. destruct (N.eqb_spec (t_root a) r); [tauto|auto].
      * intros Hl. apply Hmono. destruct (y_lock y) as [q|] eqn:El; [|apply (q_none S); auto].
        destruct (N.eqb_spec q r) as [->|]; [|discriminate].
        destruct (q_hold S t Ht) as [He Hfr Hph]; [congruence|]. rewrite Hp in Hph. fold sp in He, Hph.
        destruct Hph as [Hst (w & ls' & z & E0 & Ell & _ & Hz)]. rewrite Hz in Ell by auto.
        assert (Els : ls' = []).
        { pose proof (q_len S t Ht) as Hlen. fold sp in Hlen. rewrite E0, Elv in Hlen. destruct ls'; [auto|discriminate]. }
        subst ls'. cbn in Ell. rewrite <- (turn_full (chain t)); [|apply (chain_ne y T); auto|apply S].
        destruct (k_chain _ _ _ K) as (D & ED & _).
        rewrite (full_push _ (t_root t) D) by (rewrite turn_x; auto). rewrite Ell. exact Hst.
      * intros a Ha Hl. apply del_txn_in in Ha. destruct Ha as [Ha Hn]. rewrite upd_other by auto.
        eapply holder_mono; [exact Hmono|]. apply (q_hold S); auto.
        destruct (y_lock y) as [q|]; [|discriminate]. destruct (q =? r); [discriminate|auto].
    + apply Some_inj in E. subst y'. unfold sync. cbn [y_ms y_txns y_lock y_msgs y_copies y_obs y_trace note with_txn].
      cbn [spec_of spec_step]. set (sp := spec_of (y_trace y)) in *.
      apply (sync_set _ _ _ _ _ _ _ (mkRtxn r _ _ _) S); auto; cbn [t_root t_levels sp_levels sp_val sp_frozen]; fold sp.
      * apply S.
      * intros q Hne. apply upd_other. auto.
      * rewrite upd_same. pose proof (q_len S t Ht) as Hlen. fold sp in Hlen. rewrite Hr, Elv in Hlen.
        destruct (sp_levels sp r); [discriminate|]. cbn in *. lia.
      * rewrite upd_same. intros Hn w0 Hi. rewrite <- Hr in *. pose proof (q_other S t Ht Hn w0) as Ho. fold sp in Ho.
        apply Ho. destruct (sp_levels sp (t_root t)); [auto|right; auto].
      * rewrite upd_same. intros Hlk. rewrite <- Hr in *. destruct (q_hold S t Ht Hlk) as [He Hfr Hph]. fold sp in He, Hph.
        rewrite Hp in Hph. destruct Hph as [Hst (w & ls' & z & E0 & Ell & _ & Hz)]. rewrite Hz in Ell by auto.
        rewrite E0 in He. rewrite Elv in He. inversion He as [|? ? ? ? H1 H2 E1 E2]; subst.
        rewrite E0. cbn [tl]. constructor; cbn [t_levels t_root t_last t_phase]; auto.
        assert (Ech : chain t = rev (map lv_xid (l2 :: ls)) ++ [lv_xid l]) by (unfold chain; rewrite Elv; reflexivity).
        assert (Ech' : forall ph, chain (mkRtxn (t_root t) (l2 :: ls) (t_last t) ph) = rev (map lv_xid (l2 :: ls))) by reflexivity.
        rewrite Ech'. rewrite Ech in *.
        destruct (turn_merge (rev (map lv_xid (l2 :: ls))) (lv_xid l) (ideal (y_msgs y) (length (y_msgs y)))) as (L0 & p0 & q0 & E1 & E2 & E3).
        { cbn. destruct (rev (map lv_xid ls)); discriminate. }
        { apply S. }
        rewrite E3 in Hst. split; auto. rewrite E2. rewrite E1 in Ell.
        destruct ls' as [|w2 ls'].
        { exfalso. inversion H2. }
        cbn [map rev] in Ell |- *. rewrite <- app_assoc in Ell. cbn [app] in Ell. apply app_last2 in Ell.
        destruct Ell as (-> & -> & ->). auto.
  - (* commit starts *)
    destruct Hleg as (t & Hf & Hp & Hlen). rewrite Hf in E. destruct (find_ok _ T _ _ Hf) as (Ht & Hr & K & _).
    destruct (t_levels t) as [|l [|]] eqn:Elv; try discriminate. cbn [hd_error] in E.
    apply Some_inj in E. subst y'. unfold sync. cbn [y_ms y_txns y_lock y_msgs y_copies y_obs y_trace note with_txn].
    set (sp := spec_of (y_trace y)) in *. rewrite <- Hr.
    apply (sync_set _ _ _ _ _ _ _ (mkRtxn (t_root t) _ _ _) S); auto; cbn [t_root t_levels]; fold sp.
    + apply S.
    + rewrite <- Elv. apply (q_len S). auto.
    + apply (q_other S). auto.
    + intros Hlk. destruct (q_hold S t Ht Hlk) as [He Hfr Hph]. fold sp in He, Hph. rewrite Hp in Hph.
      destruct Hph as [Hst El]. rewrite Elv in He. inversion He as [|w l' ls' lv' H1 H2 E0 E1]; subst. inversion H2; subst.
      constructor; cbn [t_levels t_root t_last t_phase]; auto.
      * constructor; auto.
      * assert (Ech : forall ph, chain (mkRtxn (t_root t) [l] (t_last t) ph) = chain t) by (intros; unfold chain; rewrite Elv; auto).
        rewrite Ech. exists w, (ar_w (turn (chain t) (ideal (y_msgs y) (length (y_msgs y))))). split; auto. split; auto.
        destruct (k_chain _ _ _ K) as (D & ED & _). rewrite (full_push _ (t_root t) D) by (rewrite turn_x; auto).
        rewrite El, <- E0. destruct w as [[v|]|]; reflexivity.
  - (* commit message *)
    destruct Hleg as (t & b & todo & Hf & Hp). rewrite Hf, Hp in E. destruct (find_ok _ T _ _ Hf) as (Ht & Hr & K & _).
    apply Some_inj in E. subst y'. rewrite <- Hr. set (sp := spec_of (y_trace y)) in *.
    pose proof (chain_ne y T t Ht) as Hne. assert (HIa : awf (ideal (y_msgs y) (length (y_msgs y)))) by apply S.
    set (I := ideal (y_msgs y) (length (y_msgs y))) in *.
    destruct (k_chain _ _ _ K) as (D & ED & HD).
    assert (Hph0 := k_phase _ _ _ K). unfold phase_ok in Hph0. rewrite Hp in Hph0. destruct Hph0 as (l0 & Elv & Hle).
    assert (Hgo : forall I', awf I' -> full I' = full I -> (I' = I \/ (ar_x I' = chain t /\ y_lock y = Some (t_root t))) ->
       sync0 (ms_hist (y_ms y)) sp (set_txn (mkRtxn (t_root t) (t_levels t) (t_last t) (PCommit todo)) (y_txns y)) (y_lock y) I').
    { intros I' Ha' Hfull Hor.
      apply (sync_set _ _ _ _ _ _ _ (mkRtxn (t_root t) _ _ _) S); auto; cbn [t_root t_levels]; fold sp.
      + apply (q_len S). auto.
      + apply (q_other S). auto.
      + intros Hn. destruct Hor as [|[_ Hc]]; [auto|congruence].
      + intros Hlk. destruct (q_hold S t Ht Hlk) as [He Hfr Hph]. fold sp in He, Hph. rewrite Hp in Hph.
        destruct Hph as (w & W0 & E0 & Hst & Ef).
        constructor; cbn [t_levels t_root t_last t_phase]; auto.
        * intros D' ED' c Hi. destruct Hor as [->|[Hx _]]; [eauto|]. rewrite Hx, ED in ED'. injection ED' as <-. apply HD; auto.
        * exists w, W0. split; auto. split; auto.
          assert (Ech : forall ph, chain (mkRtxn (t_root t) (t_levels t) (t_last t) ph) = chain t) by reflexivity.
          rewrite Ech, turn_full, Hfull by auto. rewrite turn_full in Ef by auto. auto. }
    destruct b; unfold sync; cbn [y_ms y_txns y_lock y_msgs y_copies y_obs y_trace note send with_txn]; fold sp.
    + rewrite ideal_snoc. fold I. 
      assert (Hlk : y_lock y = Some (t_root t)).
      { apply (k_ents _ _ _ K l0); [rewrite Elv; left; auto|]. intros E0. rewrite E0 in Hle. cbn in Hle. lia. }
      assert (Eas : astep I (mkRmsg KCommit (chain t)) =
         mkARow (full (turn (chain t) I)) (chain t) (repeat XPlace (length (chain t)))).
      { unfold astep. cbn [rm_kind rm_xids]. rewrite turn_x. auto. }
      rewrite Eas. apply Hgo.
      * split; cbn; [apply full_nonempty; apply turn_awf; auto|rewrite repeat_length; auto].
      * rewrite (full_push _ (t_root t) D) by (cbn; auto). cbn [ar_l ar_w]. rewrite lastnp_repeat. cbn [pushl].
        apply turn_full; auto.
      * right. auto.
    + apply Hgo; auto.
  - (* commit done *)
    destruct Hleg as ((t & Hf & Hp) & Hno). destruct (find_ok _ T _ _ Hf) as (Ht & Hr & K & rt0 & Hrt0 & Hin0 & Hid0 & Hnf).
    destruct (retire_ok y r T A Hids) as (y1 & Ey & T' & A' & Em & E1 & E2 & E3 & E4 & E5 & E6); auto.
    { rewrite <- Hr. apply in_map. auto. }
    rewrite Ey in E. apply Some_inj in E. subst y'. unfold sync. cbn [y_ms y_txns y_lock y_msgs y_copies y_obs y_trace note].
    rewrite E1, E2, E3, E6. cbn [spec_of spec_step]. set (sp := spec_of (y_trace y)) in *.
    pose proof (mstep_later _ _ _ Em) as (B & _). destruct (finish_fx _ _ _ Em) as (_ & _ & rt & _ & _ & Eh).
    assert (Hsn : forall k, In k (snaps_of (ms_hist (y_ms y1))) -> In k (snaps_of (ms_hist (y_ms y)))).
    { rewrite Eh. intros k. destruct (r_snap rt); cbn; auto. intros Hk. apply filter_In in Hk. tauto. }
    assert (Hfr1 : finished (ms_hist (y_ms y1)) r) by (rewrite Eh; left; auto).
    assert (Hph := k_phase _ _ _ K). unfold phase_ok in Hph. rewrite Hp in Hph. destruct Hph as (l0 & Elv & _).
    assert (Hsl : exists w, sp_levels sp r = [w]).
    { pose proof (q_len S t Ht) as Hlen. fold sp in Hlen. rewrite Hr, Elv in Hlen.
      destruct (sp_levels sp r) as [|w [|]]; try discriminate. eauto. }
    destruct Hsl as (w & Ew).
    assert (Hval : (y_lock y <> Some r -> sees (sp_levels sp r) (sp_val sp) = sp_val sp)).
    { intros Hn. rewrite <- Hr in Hn. pose proof (q_other S t Ht Hn w) as Ho. fold sp in Ho. rewrite Hr, Ew in *.
      rewrite Ho by (left; auto). reflexivity. }
    assert (Hmono : forall W, settled (ms_hist (y_ms y)) (sp_val sp) (sp_frozen sp) W ->
               settled (ms_hist (y_ms y1)) (sp_val sp) (sp_frozen sp) W).
    { intros W HW. eapply settled_mono; eauto. }
    constructor; cbn [sp_levels sp_val sp_frozen].
    + apply S.
    + intros a Ha. apply del_txn_in in Ha. destruct Ha as [Ha Hn]. rewrite upd_other by auto. apply (q_len S). auto.
    + intros a Ha. apply del_txn_in in Ha. destruct Ha as [Ha Hn]. rewrite upd_other by auto.
      intros Hl. apply (q_other S); auto. intros Hc. apply Hl. rewrite Hc. destruct (N.eqb_spec (t_root a) r); [tauto|auto].
    + intros Hl. destruct (y_lock y) as [q|] eqn:El.
      * destruct (N.eqb_spec q r) as [->|]; [|discriminate].
        destruct (q_hold S t Ht) as [He Hfr Hph]; [congruence|]. rewrite Hp in Hph. fold sp in He, Hph.
        destruct Hph as (w' & W0 & E0 & Hst & Ef). rewrite Hr in *. rewrite Ew in E0. injection E0 as <-.
        rewrite turn_full in Ef; [|apply (chain_ne y T); auto|apply S]. rewrite Ef, Ew.
        assert (Hb : tox w <> XPlace -> begun (ms_hist (y_ms y)) r).
        { intros Hw. apply (c_wrote _ _ C). rewrite Elv in He. rewrite Ew in He. inversion He as [|? ? ? ? H1 H2]; subst.
          assert (Hwn : w <> None) by (intros ->; apply Hw; reflexivity).
          eapply (k_ents _ _ _ K l0); [rewrite Elv; left; auto|auto]. }
        destruct w as [v|]; [|apply Hmono; exact Hst].
        pose proof (settled_push _ (ms_hist (y_ms y)) (ms_hist (y_ms y1)) (sp_val sp) (sp_frozen sp) W0 r (tox (Some v)) C Hst B Hsn) as Hpu.
        assert (Hb' : begun (ms_hist (y_ms y)) r) by (apply Hb; destruct v; discriminate).
        specialize (Hpu Hb' Hnf Hfr1). destruct v as [v|]; exact Hpu.
      * rewrite Hval by congruence. apply Hmono. apply (q_none S). auto.
    + intros a Ha Hl. apply del_txn_in in Ha. destruct Ha as [Ha Hn]. rewrite upd_other by auto.
      destruct (y_lock y) as [q|] eqn:El; [|discriminate]. destruct (N.eqb_spec q r); [discriminate|].
      rewrite Hval by congruence. eapply holder_mono; [exact Hmono|]. apply (q_hold S); auto. congruence.
  - (* a look *)
    apply Some_inj in E. subst y'. exact S.
  - (* optimize *)
    destruct (nth_error (y_obs y) i) as [ob|]; [|discriminate]. apply Some_inj in E. subst y'.
    unfold sync. cbn [y_ms y_txns y_lock y_msgs y_copies y_obs y_trace send]. rewrite ideal_snoc. exact S.
  - destruct (nth_error (y_copies y) j) as [[k le]|]; [|discriminate]. destruct (nth_error (y_msgs y) k) as [[m h]|]; [|discriminate].
    destruct (mk_gi _ _); [|discriminate]. destruct (row_apply _ _ _); [|discriminate]. apply Some_inj in E. subst y'. exact S.
  - destruct (nth_error (y_copies y) j) as [[k le]|]; [|discriminate].
    destruct (mk_gi _ _); [|discriminate]. destruct le; [|discriminate]. destruct (le_garbage_collect _ _); [|discriminate].
    apply Some_inj in E. subst y'. exact S.
Qed.

Lemma sync_init last : sync (rsys_init last).
Proof.
  constructor; cbn.
  - split; [discriminate|reflexivity].
  - intros t [].
  - intros t [].
  - intros _. constructor; cbn; auto; try discriminate; intros x [].
  - intros t [].
Qed.

Theorem rreach_sync last y : rreach last y -> sync y.
Proof.
  induction 1 as [H|y o y' R IH Hl Hi E]; [apply sync_init|].
  destruct (rreach_inv _ _ R) as [T A]. eapply sync_step; eauto.
Qed.
