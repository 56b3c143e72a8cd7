(** One row of one dictionary: the messages the log stands for against what the
    users did according to the log. *)
From Coq Require Import Sorted.
From Verif Require Import Base UleModel UleSpec MgrModel MvccModel MvccSpec StackProofs MvccGc MvccRow MvccSync
  RecModel RecSpec RecIdeal.
Open Scope N_scope.

(** The messages of row [k], oldest first, and the ideal row they make. *)
Definition rmsgs (k : rkey) (ml : mlist) : list rmsg :=
  map snd (filter (fun p => rkey_eqb (fst p) k) ml).
Definition arows (ms : list rmsg) : arow := fold_left astep ms arow_init.

Lemma rmsgs_app k a b : rmsgs k (a ++ b) = rmsgs k a ++ rmsgs k b.
Proof. unfold rmsgs. now rewrite filter_app, map_app. Qed.
Lemma arows_app a b : arows (a ++ b) = fold_left astep b (arows a).
Proof. apply fold_left_app. Qed.
Lemma rkey_eqb_spec a b : reflect (a = b) (rkey_eqb a b).
Proof. unfold rkey_eqb. destruct (list_eq_dec _ _ _); constructor; auto. Qed.

Definition to_row (op : names) (nm : fname) (k : rkey) (fn : fnum) (k' : rkey) : bool :=
  match nlook fn op with Some n => n =? nm | None => false end && rkey_eqb k' k.
Definition hits (op : names) (nm : fname) (k : rkey) (e : ent) : bool := to_row op nm k (en_fn e) (en_key e).

Lemma rmsgs_commit op nm k x es : rmsgs k (mine op nm (commit_msgs x es)) =
  repeat (mkRmsg KCommit x) (length (filter (fun e => hits op nm k e && en_del e) es)).
Proof.
  induction es as [|e es IH]; [reflexivity|]. unfold commit_msgs in *. cbn [flat_map]. unfold mine in *.
  rewrite filter_app, map_app, rmsgs_app, IH. cbn [filter]. unfold hits at 2, to_row.
  destruct (en_del e); [|rewrite andb_false_r; reflexivity]. rewrite andb_true_r. cbn [filter fst].
  destruct (nlook (en_fn e) op) as [n|]; [|reflexivity]. destruct (n =? nm); [|reflexivity].
  cbn [map snd]. unfold rmsgs. cbn [filter fst andb]. destruct (rkey_eqb (en_key e) k); reflexivity.
Qed.
Lemma rmsgs_abort op nm k x es : rmsgs k (mine op nm (abort_msgs x es)) =
  repeat (mkRmsg KAbort x) (length (filter (hits op nm k) es)).
Proof.
  induction es as [|e es IH]; [reflexivity|]. unfold abort_msgs, mine in *. cbn [map filter fst]. unfold hits at 1, to_row.
  destruct (nlook (en_fn e) op) as [n|]; [|exact IH]. destruct (n =? nm); [|exact IH].
  cbn [map snd]. unfold rmsgs in *. cbn [filter fst andb]. destruct (rkey_eqb (en_key e) k); cbn [map length repeat snd]; [f_equal|]; exact IH.
Qed.
Lemma rmsgs_one op nm k fn k' m : rmsgs k (mine op nm [(fn, (k', m))]) = if to_row op nm k fn k' then [m] else [].
Proof.
  unfold mine, to_row. cbn [filter fst]. destruct (nlook fn op) as [n|]; [|reflexivity]. destruct (n =? nm); [|reflexivity].
  unfold rmsgs. cbn [map filter fst snd andb]. destruct (rkey_eqb k' k); reflexivity.
Qed.

Lemma Forall2_cons_iff {A B} (P : A -> B -> Prop) a l b m : Forall2 P (a :: l) (b :: m) <-> P a b /\ Forall2 P l m.
Proof. split; [intros H; inversion H; auto|intros []; constructor; auto]. Qed.

Lemma holds_dec (lk : option txnid) r : {lk = Some r} + {lk <> Some r}.
Proof. decide equality. apply N.eq_dec. Qed.

(** * Runs of equal messages *)

Lemma awf_init : awf arow_init.
Proof. split; [discriminate|reflexivity]. Qed.

Lemma abort_one Y A L0 z : Y <> [] -> awf A -> ar_l (turn Y A) = L0 ++ [z] ->
  let A' := astep A (mkRmsg KAbort Y) in
  awf A' /\ ar_x A' = Y /\ ar_w (turn Y A') = ar_w (turn Y A) /\ ar_l (turn Y A') = L0 ++ [XPlace].
Proof.
  intros HY Ha El A'. assert (EA : A' = aput XPlace (turn Y A)) by reflexivity.
  assert (HA' : awf A'). { rewrite EA. apply awf_put; [apply turn_awf; auto|rewrite turn_x; auto]. }
  assert (Hx : ar_x A' = Y) by (rewrite EA; apply turn_x).
  assert (Et : turn Y A' = A') by (rewrite <- Hx at 1; apply turn_same; auto; congruence).
  rewrite Et. repeat split; auto; try apply HA'. rewrite EA. cbn [aput ar_l]. rewrite El. apply setlast_snoc.
Qed.
Lemma aborts_ok Y n : forall A L0 z, Y <> [] -> awf A -> ar_l (turn Y A) = L0 ++ [z] ->
  let A' := fold_left astep (repeat (mkRmsg KAbort Y) n) A in
  awf A' /\ (A' = A \/ ar_x A' = Y) /\ ar_w (turn Y A') = ar_w (turn Y A)
  /\ ar_l (turn Y A') = L0 ++ [match n with O => z | _ => XPlace end].
Proof.
  induction n as [|n IH]; intros A L0 z HY Ha El; cbn [repeat fold_left]; [auto|].
  destruct (abort_one Y A L0 z HY Ha El) as (A1 & A2 & A3 & A4).
  destruct (IH _ L0 XPlace HY A1 A4) as (B1 & B2 & B3 & B4). split; [auto|]. split.
  - right. destruct B2 as [B2|B2]; [|auto]. cbv zeta in B2. rewrite B2. auto.
  - split; [congruence|]. rewrite B4. destruct n; reflexivity.
Qed.
Lemma commits_ok Y n : forall A, Y <> [] -> awf A ->
  let A' := fold_left astep (repeat (mkRmsg KCommit Y) n) A in
  awf A' /\ (A' = A \/ ar_x A' = Y) /\ full A' = full A.
Proof.
  induction n as [|n IH]; intros A HY Ha; cbn [repeat fold_left]; [auto|].
  set (A1 := astep A (mkRmsg KCommit Y)).
  assert (E : A1 = mkARow (full (turn Y A)) Y (repeat XPlace (length Y))).
  { unfold A1, astep. cbn [rm_kind rm_xids]. now rewrite turn_x. }
  assert (H1 : awf A1). { rewrite E. split; cbn; [apply full_nonempty, turn_awf; auto|now rewrite repeat_length]. }
  destruct (IH A1 HY H1) as (B1 & B2 & B3). split; [auto|]. split.
  - right. destruct B2 as [B2|B2]; [|auto]. cbv zeta in B2. rewrite B2, E. reflexivity.
  - rewrite B3, <- (turn_full Y A) by auto. rewrite E. unfold full at 1. cbn [ar_x ar_l ar_w].
    destruct Y; [congruence|]. rewrite lastnp_repeat. reflexivity.
Qed.

(** * The invariant *)

Section Row.
Context (nm : fname) (k : rkey).

Record Holder (op : names) (A : arow) (cl : txnid) (sp : rspec) (t : ptxn) : Prop := {
  ho_ents : Forall2 (fun w l => w <> None -> existsb (hits op nm k) (rl_ents l) = true)
              (sp_levels sp (pt_root t)) (pt_levels t);
  ho_fresh : forall C, ar_x A = pt_root t :: C -> forall c, In c C -> c <= cl;
  ho_val : xval (whead (ar_w (turn (pt_chain t) A))) = sp_val sp;
  ho_lev : ar_l (turn (pt_chain t) A) = rev (map tox (sp_levels sp (pt_root t)))
}.

Record RI (op : names) (ts : list ptxn) (A : arow) (lk : option txnid) (used : list txnid)
    (cl : txnid -> txnid) (sp : rspec) : Prop := {
  ro_awf : awf A;
  ro_len : forall t, In t ts -> length (sp_levels sp (pt_root t)) = length (pt_levels t);
  ro_other : forall t, In t ts -> lk <> Some (pt_root t) -> forall w, In w (sp_levels sp (pt_root t)) -> w = None;
  ro_ents : forall t l e, In t ts -> In l (pt_levels t) -> In e (rl_ents l) -> hits op nm k e = true -> lk = Some (pt_root t);
  ro_live : forall r, lk = Some r -> In r (map pt_root ts);
  ro_top : forall x X, ar_x A = x :: X -> In x used /\ (In x (map pt_root ts) -> lk = Some x);
  ro_none : lk = None -> xval (cur A) = sp_val sp;
  ro_hold : forall t, In t ts -> lk = Some (pt_root t) -> Holder op A (cl (pt_root t)) sp t
}.

Lemma set_pt_In t ts u : In u (set_pt t ts) -> u = t \/ (In u ts /\ pt_root u <> pt_root t).
Proof.
  unfold set_pt. intros H. apply in_map_iff in H. destruct H as (v & E & Hv).
  destruct (N.eqb_spec (pt_root v) (pt_root t)) as [E'|E']; [left; auto|right]. subst v. auto.
Qed.

Lemma ri_set op ts A lk used cl sp t' A' cl' sp' : RI op ts A lk used cl sp ->
  In (pt_root t') (map pt_root ts) -> awf A' -> sp_val sp' = sp_val sp ->
  (forall r, r <> pt_root t' -> sp_levels sp' r = sp_levels sp r) ->
  (forall r, r <> pt_root t' -> cl' r = cl r) ->
  length (sp_levels sp' (pt_root t')) = length (pt_levels t') ->
  (lk <> Some (pt_root t') -> A' = A /\ forall w, In w (sp_levels sp' (pt_root t')) -> w = None) ->
  (forall l e, In l (pt_levels t') -> In e (rl_ents l) -> hits op nm k e = true -> lk = Some (pt_root t')) ->
  (ar_x A' = ar_x A \/ exists D, ar_x A' = pt_root t' :: D /\ In (pt_root t') used /\ lk = Some (pt_root t')) ->
  (lk = Some (pt_root t') -> Holder op A' (cl' (pt_root t')) sp' t') ->
  RI op (set_pt t' ts) A' lk used cl' sp'.
Proof.
  intros R Hr Ha Ev El Ecl Hlen Ho He Hx Hh. constructor; auto.
  - intros t Ht. apply set_pt_In in Ht. destruct Ht as [->|[Ht Hn]]; [auto|]. rewrite El by auto. apply (ro_len _ _ _ _ _ _ _ R); auto.
  - intros t Ht Hn. apply set_pt_In in Ht. destruct Ht as [->|[Ht Hn']]; [apply Ho; auto|]. rewrite El by auto.
    apply (ro_other _ _ _ _ _ _ _ R); auto.
  - intros t l e Ht. apply set_pt_In in Ht. destruct Ht as [->|[Ht Hn']]; [apply He|]. apply (ro_ents _ _ _ _ _ _ _ R); auto.
  - intros r E. rewrite set_pt_roots. apply (ro_live _ _ _ _ _ _ _ R); auto.
  - intros x X E. rewrite set_pt_roots. destruct Hx as [Hx|(D & Hx & Hu & Hl)].
    + rewrite Hx in E. apply (ro_top _ _ _ _ _ _ _ R x X); auto.
    + rewrite Hx in E. injection E as <- _. auto.
  - intros E. destruct Ho as [-> _]; [congruence|]. rewrite Ev. apply (ro_none _ _ _ _ _ _ _ R); auto.
  - intros t Ht E. apply set_pt_In in Ht. destruct Ht as [->|[Ht Hn]]; [auto|].
    destruct Ho as [-> _]; [congruence|]. destruct (ro_hold _ _ _ _ _ _ _ R t Ht E) as [H1 H2 H3 H4].
    constructor; rewrite ?El, ?Ev, ?Ecl; auto.
Qed.

(** A transaction ends. *)
Lemma ri_del op ts A lk used cl sp r A' sp' : RI op ts A lk used cl sp -> awf A' ->
  (forall q, q <> r -> sp_levels sp' q = sp_levels sp q) ->
  (ar_x A' = ar_x A \/ exists D, ar_x A' = r :: D /\ In r used) ->
  (lk <> Some r -> A' = A /\ sp_val sp' = sp_val sp) ->
  (lk = Some r -> xval (cur A') = sp_val sp') ->
  RI op (del_pt r ts) A' (match lk with Some q => if q =? r then None else Some q | None => None end) used cl sp'.
Proof.
  intros R Ha El Hx Hn Hy.
  assert (Hlk : lk = Some r \/ (lk <> Some r /\ match lk with Some q => if q =? r then None else Some q | None => None end = lk)).
  { destruct lk as [q|]; [|right; split; [discriminate|auto]]. destruct (N.eqb_spec q r) as [E|E]; [left; congruence|right].
    split; [congruence|auto]. }
  assert (Hin : forall u, In u (del_pt r ts) -> In u ts /\ pt_root u <> r).
  { intros u H. unfold del_pt in H. apply filter_In in H. destruct H as [H1 H2]. split; [auto|].
    apply negb_true_iff, N.eqb_neq in H2. auto. }
  assert (Hinr : forall x, In x (map pt_root (del_pt r ts)) -> In x (map pt_root ts) /\ x <> r).
  { intros x H. apply in_map_iff in H. destruct H as (u & <- & Hu). destruct (Hin u Hu). split; [apply in_map; auto|auto]. }
  constructor; auto.
  - intros t Ht. apply Hin in Ht. destruct Ht as [Ht Hr]. rewrite El by auto. apply (ro_len _ _ _ _ _ _ _ R); auto.
  - intros t Ht Hl. apply Hin in Ht. destruct Ht as [Ht Hr]. rewrite El by auto. apply (ro_other _ _ _ _ _ _ _ R); auto.
    intros E. apply Hl. rewrite E. destruct (N.eqb_spec (pt_root t) r); [tauto|auto].
  - intros t l e Ht Hl1 Hl2 Hh. apply Hin in Ht. destruct Ht as [Ht Hr].
    rewrite (ro_ents _ _ _ _ _ _ _ R t l e Ht Hl1 Hl2 Hh). destruct (N.eqb_spec (pt_root t) r); [tauto|auto].
  - intros q E. destruct Hlk as [E'|[E' E'']].
    + rewrite E', N.eqb_refl in E. discriminate.
    + rewrite E'' in E. pose proof (ro_live _ _ _ _ _ _ _ R q E) as H. apply in_map_iff in H. destruct H as (u & Eu & Hu).
      apply in_map_iff. exists u. split; [auto|]. unfold del_pt. apply filter_In. split; [auto|].
      apply negb_true_iff, N.eqb_neq. congruence.
  - intros x X E. assert (H : In x used /\ (x <> r -> In x (map pt_root ts) -> lk = Some x)).
    { destruct Hx as [Hx|(D & Hx & Hu)].
      - rewrite Hx in E. destruct (ro_top _ _ _ _ _ _ _ R x X E). auto.
      - rewrite Hx in E. injection E as <- _. split; [auto|]. congruence. }
    destruct H as [H1 H2]. split; [auto|]. intros Hi. apply Hinr in Hi. destruct Hi as [Hi Hne].
    rewrite (H2 Hne Hi). destruct (N.eqb_spec x r); [tauto|auto].
  - intros E. destruct Hlk as [E'|[E' E'']]; [auto|]. rewrite E'' in E. destruct (Hn E') as [-> ->]. apply (ro_none _ _ _ _ _ _ _ R); auto.
  - intros t Ht E. apply Hin in Ht. destruct Ht as [Ht Hr]. destruct Hlk as [E'|[E' E'']].
    + rewrite E', N.eqb_refl in E. discriminate.
    + rewrite E'' in E. destruct (Hn E') as [-> Ev]. destruct (ro_hold _ _ _ _ _ _ _ R t Ht E) as [H1 H2 H3 H4].
      constructor; rewrite ?El, ?Ev; auto.
Qed.

Lemma chain_ne' I t : txn_ok I t -> exists D, pt_chain t = pt_root t :: D /\ Forall (fun c => c <= i_clast I (pt_root t)) D.
Proof.
  intros ((ls & l & E & El & Hc & _) & _). unfold pt_chain. rewrite E, map_app, rev_app_distr. cbn.
  exists (rev (map rl_xid ls)). rewrite El. split; [auto|]. apply Forall_rev, Forall_map. eapply Forall_impl; [|exact Hc].
  intros c (_ & _ & H). auto.
Qed.

(** Taking the row lock. *)
Lemma ri_lock I A sp t : IWf I -> let ts := i_txns I in let op := i_open I in let lk := i_locks I nm k in
  RI op ts A lk (i_used I) (i_clast I) sp -> In t ts ->
  lk = None \/ lk = Some (pt_root t) -> RI op ts A (Some (pt_root t)) (i_used I) (i_clast I) sp.
Proof.
  intros W ts op lk R Ht [E|E]; [|rewrite E in R; exact R].
  assert (Hu : forall a, In a ts -> pt_root a = pt_root t -> a = t).
  { intros a Ha Er. pose proof (sorted_find _ _ (iw_sorted _ W) Ha) as F1. pose proof (sorted_find _ _ (iw_sorted _ W) Ht) as F2.
    rewrite Er in F1. congruence. }
  assert (Hx : forall x X, ar_x A = x :: X -> ~ In x (map pt_root ts)).
  { intros x X Ex Hi. destruct (ro_top _ _ _ _ _ _ _ R x X Ex) as [_ H]. apply H in Hi. congruence. }
  constructor; try apply R.
  - intros a Ha Hn. apply (ro_other _ _ _ _ _ _ _ R a Ha). congruence.
  - intros a l e Ha Hl He Hh. pose proof (ro_ents _ _ _ _ _ _ _ R a l e Ha Hl He Hh). congruence.
  - intros r [= <-]. apply in_map. auto.
  - intros x X Ex. destruct (ro_top _ _ _ _ _ _ _ R x X Ex) as [H _]. split; [auto|]. intros Hi. apply (Hx _ _ Ex) in Hi. tauto.
  - discriminate.
  - intros a Ha [= Er]. assert (a = t) by auto. subst a.
    pose proof (ro_other _ _ _ _ _ _ _ R t Ht ltac:(congruence)) as Ho. pose proof (ro_len _ _ _ _ _ _ _ R t Ht) as Hlen.
    assert (Hh : hd_eq (ar_x A) (pt_chain t) = false).
    { destruct (chain_ne' I t) as (D & ED & _); [apply (proj1 (Forall_forall _ _) (iw_txns _ W)); auto|]. rewrite ED.
      destruct (ar_x A) as [|x X] eqn:Ex; [reflexivity|]. cbn. destruct (N.eqb_spec x (pt_root t)) as [E'|]; [|auto].
      exfalso. apply (Hx x X eq_refl). rewrite E'. apply in_map. auto. }
    constructor.
    + revert Ho Hlen. generalize (sp_levels sp (pt_root t)) (pt_levels t). clear. intros ls.
      induction ls as [|w ls IH]; intros [|l lv] Ho Hlen; try discriminate; constructor.
      * intros Hw. exfalso. apply Hw, Ho. left. auto.
      * apply IH; auto. intros; apply Ho; right; auto.
    + intros C Ex. exfalso. apply (Hx _ _ Ex). apply in_map. auto.
    + unfold turn. rewrite Hh. cbn [ar_w]. rewrite whead_full by apply R. apply (ro_none _ _ _ _ _ _ _ R). auto.
    + unfold turn. rewrite Hh. cbn [ar_l]. rewrite tox_none by auto. unfold pt_chain. rewrite rev_length, map_length.
      f_equal. auto.
Qed.

Lemma ri_names op op' ts A lk used cl sp : RI op ts A lk used cl sp ->
  (forall t l e, In t ts -> In l (pt_levels t) -> In e (rl_ents l) -> hits op' nm k e = hits op nm k e) ->
  RI op' ts A lk used cl sp.
Proof.
  intros R H. constructor; try apply R.
  - intros t l e Ht Hl He Hh. rewrite (H t l e) in Hh by auto. apply (ro_ents _ _ _ _ _ _ _ R t l e); auto.
  - intros t Ht E. destruct (ro_hold _ _ _ _ _ _ _ R t Ht E) as [H1 H2 H3 H4]. constructor; auto.
    assert (G : forall l, In l (pt_levels t) -> forall e, In e (rl_ents l) -> hits op' nm k e = hits op nm k e) by (intros; eapply H; eauto).
    clear - H1 G. induction H1 as [|w l ls lv Hw _ IH]; constructor.
    + intros E. apply Hw in E. apply existsb_exists in E. destruct E as (e & He & Hh). apply existsb_exists. exists e.
      split; [auto|]. rewrite (G l); auto. left. auto.
    + apply IH. intros l' Hl'. apply G. right. auto.
Qed.

Lemma ent_open I t l e : IWf I -> In t (i_txns I) -> In l (pt_levels t) -> In e (rl_ents l) ->
  In (en_fn e) (rl_fts l) /\ nlook (en_fn e) (i_open I) <> None.
Proof.
  intros W Ht Hl He. pose proof (proj1 (Forall_forall _ _) (iw_txns _ W) t Ht) as (_ & _ & Hv).
  destruct (proj1 (Forall_forall _ _) Hv l Hl) as [H1 H2]. pose proof (proj1 (Forall_forall _ _) H1 e He) as H3. cbv beta in H3.
  apply memb_In in H3. split; [auto|]. apply (proj1 (Forall_forall _ _) H2). auto.
Qed.

Definition row_of (I : ist) : arow := arows (rmsgs k (i_cont I nm)).
Definition RowOk (I : ist) (o : names) (sp : rspec) : Prop :=
  (forall fn n, nlook fn (i_open I) = Some n -> nlook fn o = Some n)
  /\ RI (i_open I) (i_txns I) (row_of I) (i_locks I nm k) (i_used I) (i_clast I) sp.

Definition name_step (o : names) (x : lrec) : names := match x with LFopen fn n => (fn, n) :: o | _ => o end.

Lemma row_begin I o sp r I' : IWf I -> RowOk I o sp -> istep I (LBegin r 0 None) = Some I' ->
  RowOk I' o (spec_step sp (VBegin r)).
Proof.
  intros W [Ho R] E. cbn [istep] in E. destruct (memb r (i_used I)) eqn:Hm; [destruct (0 =? TXNID_NONE); discriminate|].
  cbn [negb] in E. destruct (0 =? TXNID_NONE); [|discriminate]. destruct (0 <? r) eqn:H0; [|discriminate].
  destruct (r <? TXNID_MAX); [|discriminate]. apply memb_false in Hm.
  injection E as <-. split; [exact Ho|]. unfold row_of. cbn [i_open i_txns i_cont i_locks i_used i_clast]. fold (row_of I).
  assert (Hnr : forall t, In t (i_txns I) -> pt_root t <> r).
  { intros t Ht Er. apply Hm. rewrite <- Er. apply (proj1 (Forall_forall _ _) (iw_used _ W)). auto. }
  assert (Hlk : i_locks I nm k <> Some r).
  { intros El. pose proof (ro_live _ _ _ _ _ _ _ R r El) as H. apply in_map_iff in H. destruct H as (t & Er & Ht). apply (Hnr t); auto. }
  cbn [spec_step]. constructor; cbn [sp_val sp_levels].
  - apply R.
  - intros t Ht. apply ins_pt_In in Ht. destruct Ht as [->|Ht]; cbn [pt_root pt_levels]; [now rewrite upd_same|].
    rewrite upd_other by auto. apply R; auto.
  - intros t Ht Hl w. apply ins_pt_In in Ht. destruct Ht as [->|Ht]; cbn [pt_root].
    + rewrite upd_same. intros [<-|[]]. auto.
    + rewrite upd_other by auto. apply (ro_other _ _ _ _ _ _ _ R t Ht Hl w).
  - intros t l e Ht. apply ins_pt_In in Ht. destruct Ht as [->|Ht]; cbn [pt_root pt_levels].
    + intros [<-|[]]. cbn. tauto.
    + apply (ro_ents _ _ _ _ _ _ _ R t l e Ht).
  - intros q Eq. pose proof (ro_live _ _ _ _ _ _ _ R q Eq) as H. apply in_map_iff in H. destruct H as (t & Er & Ht).
    apply in_map_iff. exists t. split; [auto|]. apply ins_pt_In. auto.
  - intros x X Ex. destruct (ro_top _ _ _ _ _ _ _ R x X Ex) as [H1 H2]. split; [right; auto|].
    intros Hi. apply in_map_iff in Hi. destruct Hi as (t & Er & Ht). apply ins_pt_In in Ht. destruct Ht as [->|Ht].
    + exfalso. cbn in Er. subst x. auto.
    + apply H2. rewrite <- Er. apply in_map. auto.
  - apply R.
  - intros t Ht El. apply ins_pt_In in Ht. destruct Ht as [->|Ht]; [cbn in El; tauto|].
    destruct (ro_hold _ _ _ _ _ _ _ R t Ht El) as [H1 H2 H3 H4]. constructor; cbn [sp_val sp_levels]; rewrite ?upd_other by auto; auto.
Qed.

Lemma row_child I o sp r c p I' : IWf I -> RowOk I o sp -> istep I (LBegin r c (Some p)) = Some I' ->
  RowOk I' o (spec_step sp (VChild r)).
Proof.
  intros W [Ho R] E. cbn [istep] in E. destruct (find_inner r p (i_txns I)) as [t|] eqn:F; [|discriminate].
  apply find_inner_some in F. destruct F as (F & Ht & Hr & _).
  destruct (negb (pt_prep t)); [|discriminate]. destruct (N.ltb_spec (i_clast I r) c) as [Hc|]; [|discriminate].
  destruct (N.eqb_spec c r) as [|Hcr]; [discriminate|]. cbn [negb] in E. destruct (_ <? MAX_NESTED_TRANSACTIONS)%nat; [|discriminate].
  destruct (_ <? _); [|discriminate]. injection E as <-. split; [exact Ho|]. unfold row_of.
  cbn [i_open i_txns i_cont i_locks i_used i_clast]. fold (row_of I).
  pose proof (proj1 (Forall_forall _ _) (iw_txns _ W) t Ht) as Tk. destruct (chain_ne' I t Tk) as (D & ED & HD).
  cbn [spec_step]. eapply ri_set; [exact R|..]; cbn [pt_root pt_levels sp_val sp_levels].
  - rewrite <- Hr. apply in_map. auto.
  - apply R.
  - auto.
  - intros q Hq. apply upd_other. auto.
  - intros q Hq. unfold upd2. destruct (N.eqb_spec q r); [tauto|auto].
  - rewrite upd_same. cbn. rewrite <- Hr at 1. f_equal. apply R. auto.
  - intros Hl. split; [auto|]. rewrite upd_same. intros w [<-|Hw]; [auto|]. rewrite <- Hr in *.
    apply (ro_other _ _ _ _ _ _ _ R t Ht Hl w Hw).
  - intros l e [<-|Hl]; [cbn; tauto|]. intros He Hh. rewrite <- Hr. apply (ro_ents _ _ _ _ _ _ _ R t l e); auto.
  - auto.
  - intros Hl. rewrite <- Hr in Hl. destruct (ro_hold _ _ _ _ _ _ _ R t Ht Hl) as [H1 H2 H3 H4]. rewrite Hr in *.
    assert (Ech : pt_chain (mkPt r (mkRl c [] [] :: pt_levels t) false) = pt_chain t ++ [c]) by reflexivity.
    destruct (turn_snoc (pt_chain t) c (row_of I)) as [S1 S2].
    { rewrite ED. discriminate. }
    { apply R. }
    { intros Hh Hi. rewrite ED in Hh. apply hd_eq_cons in Hh. destruct Hh as (X & EX). rewrite EX in Hi.
      destruct Hi as [Hi|Hi]; [congruence|]. apply (H2 X EX) in Hi. lia. }
    constructor; cbn [pt_root pt_levels sp_val sp_levels]; rewrite ?upd_same, ?Ech.
    + constructor; [congruence|exact H1].
    + intros C EC c' Hi. specialize (H2 C EC c' Hi). lia.
    + rewrite S1. exact H3.
    + rewrite S2, H4. reflexivity.
Qed.

Lemma push_rent_chain e t : pt_chain (push_rent e t) = pt_chain t.
Proof. unfold push_rent, pt_chain. destruct (pt_levels t) as [|l ls] eqn:E; [now rewrite E|reflexivity]. Qed.
Lemma push_rent_root e t : pt_root (push_rent e t) = pt_root t.
Proof. unfold push_rent. destruct (pt_levels t); reflexivity. Qed.
Lemma push_rent_len e t : length (pt_levels (push_rent e t)) = length (pt_levels t).
Proof. unfold push_rent. destruct (pt_levels t) as [|l ls] eqn:E; [now rewrite E|reflexivity]. Qed.
Lemma push_rent_ents e t l e' : In l (pt_levels (push_rent e t)) -> In e' (rl_ents l) ->
  e' = e \/ exists l', In l' (pt_levels t) /\ In e' (rl_ents l').
Proof.
  unfold push_rent. destruct (pt_levels t) as [|l0 ls] eqn:E; [rewrite E; intros []|]. cbn. intros [<-|Hl].
  - cbn. intros [<-|H]; [auto|]. right. exists l0. auto.
  - intros H. right. exists l. auto.
Qed.
Lemma set_top_len w ls : length (set_top w ls) = length ls.
Proof. destruct w, ls; reflexivity. Qed.

Lemma row_write I o sp fn r c k' w I' : IWf I -> RowOk I o sp -> istep I (LEnq fn r c k' w) = Some I' ->
  RowOk I' o (fold_left spec_step (row_events nm k o [LEnq fn r c k' w]) sp).
Proof.
  intros W [Ho R] E. cbn [istep] in E. destruct (find_inner r c (i_txns I)) as [t|] eqn:F; [|discriminate].
  apply find_inner_some in F. destruct F as (F & Ht & Hr & _).
  destruct (nlook fn (i_open I)) as [n|] eqn:En; [|discriminate].
  destruct (negb (pt_prep t)); [|discriminate]. destruct (lock_free r n k' (i_locks I)) eqn:Hlf; [|discriminate].
  injection E as <-. split; [exact Ho|]. unfold row_of, iwith, isend.
  cbn [i_open i_txns i_cont i_locks i_used i_clast]. rewrite rmsgs_app, arows_app, rmsgs_one. fold (row_of I).
  pose proof (proj1 (Forall_forall _ _) (iw_txns _ W) t Ht) as Tk. destruct (chain_ne' I t Tk) as (D & ED & HD).
  cbn [row_events]. rewrite (Ho fn n En), app_nil_r.
  assert (Et : to_row (i_open I) nm k fn k' = (n =? nm) && rkey_eqb k' k) by (unfold to_row; now rewrite En).
  rewrite Et. unfold take. rewrite (N.eqb_sym nm n).
  assert (Hsym : rkey_eqb k k' = rkey_eqb k' k) by (destruct (rkey_eqb_spec k k'), (rkey_eqb_spec k' k); congruence).
  rewrite Hsym. destruct ((n =? nm) && rkey_eqb k' k) eqn:Hit.
  - apply andb_prop in Hit. destruct Hit as [H1 H2]. apply N.eqb_eq in H1. destruct (rkey_eqb_spec k' k) as [->|]; [|discriminate].
    subst n. cbn [fold_left].
    assert (R1 : RI (i_open I) (i_txns I) (row_of I) (Some r) (i_used I) (i_clast I) sp).
    { rewrite <- Hr. apply ri_lock; auto. unfold lock_free in Hlf. rewrite Hr. destruct (i_locks I nm k) as [q|]; [|auto].
      right. f_equal. apply N.eqb_eq in Hlf. auto. }
    clear R. rename R1 into R. destruct (ro_hold _ _ _ _ _ _ _ R t Ht ltac:(congruence)) as [G1 G2 G3 G4]. rewrite Hr in *.
    assert (Hls : sp_levels sp r <> []).
    { intros E0. rewrite E0 in G1. inversion G1 as [E1|]. pose proof ED as ED'. unfold pt_chain in ED'. rewrite <- H in ED'. discriminate. }
    assert (Hch : pt_chain t <> []) by (rewrite ED; discriminate).
    destruct (write_levels (row_of I) (pt_chain t) w (sp_levels sp r) (sp_val sp) Hch (ro_awf _ _ _ _ _ _ _ R) Hls G4 G3)
      as (A1 & A2 & A3 & A4).
    cbn [spec_step]. eapply ri_set; [exact R|..]; rewrite ?push_rent_root, ?Hr; cbn [sp_val sp_levels].
    + rewrite <- Hr. apply in_map. auto.
    + exact A1.
    + auto.
    + intros q Hq. apply upd_other. auto.
    + auto.
    + rewrite upd_same, set_top_len, push_rent_len, <- Hr. apply R. auto.
    + tauto.
    + auto.
    + destruct A4 as [A4|A4]; [right|left; congruence]. exists D. rewrite A4, ED. split; [auto|]. split; [|auto]. rewrite <- Hr.
      apply (proj1 (Forall_forall _ _) (iw_used _ W)). auto.
    + intros _. constructor; rewrite ?push_rent_root, ?push_rent_chain, ?Hr; cbn [sp_val sp_levels]; rewrite ?upd_same.
      * destruct (sp_levels sp r) as [|l0 ls0]; [congruence|]. inversion G1 as [|? l1 ? lv1 K1 K2 E0 E1]; subst.
        unfold push_rent. rewrite <- E1. cbn [pt_levels].
        assert (Hh : existsb (hits (i_open I) nm k) (mkEnt fn k (went w) :: rl_ents l1) = true).
        { cbn [existsb]. unfold hits at 1. cbn [en_fn en_key]. rewrite Et. reflexivity. }
        destruct (wval w (sees (l0 :: ls0) (sp_val sp))); cbn [set_top]; constructor; auto.
      * intros C EC c' Hi. destruct A4 as [A4|A4].
        -- rewrite A4, ED in EC. injection EC as <-. apply (proj1 (Forall_forall _ _) HD). auto.
        -- rewrite A4 in EC. eauto.
      * rewrite A2. exact G3.
      * exact A3.
  - cbn [fold_left]. eapply ri_set; [exact R|..]; rewrite ?push_rent_root, ?Hr; auto.
    + rewrite <- Hr. apply in_map. auto.
    + apply R.
    + rewrite push_rent_len, <- Hr. apply R; auto.
    + intros Hl. split; [auto|]. rewrite <- Hr in *. apply (ro_other _ _ _ _ _ _ _ R t Ht Hl).
    + intros l e Hl He Hh. destruct (push_rent_ents _ _ _ _ Hl He) as [->|(l' & Hl' & He')].
      * unfold hits in Hh. cbn [en_fn en_key] in Hh. congruence.
      * rewrite <- Hr. apply (ro_ents _ _ _ _ _ _ _ R t l' e); auto.
    + intros Hl. rewrite <- Hr in Hl. destruct (ro_hold _ _ _ _ _ _ _ R t Ht Hl) as [G1 G2 G3 G4]. rewrite Hr in *.
      constructor; rewrite ?push_rent_root, ?push_rent_chain, ?Hr; auto.
      unfold push_rent. destruct (pt_levels t) as [|l1 lv1] eqn:E1; [now rewrite E1|]. cbn [pt_levels].
      inversion G1 as [|w0 ? ls0 ? K1 K2 E0 E2]; subst. constructor; [|exact K2]. intros Hw. cbn [rl_ents existsb].
      rewrite (K1 Hw). apply orb_true_r.
Qed.

Lemma row_merge I o sp r c I' t x y ls : IWf I -> RowOk I o sp -> find_inner r c (i_txns I) = Some t ->
  pt_levels t = x :: y :: ls -> I' = iwith I (set_pt (merge_child t) (i_txns I)) (i_cont I) (i_locks I) ->
  RowOk I' o (spec_step sp (VChildCommit r)).
Proof.
  intros W [Ho R] F Elv ->. apply find_inner_some in F. destruct F as (F & Ht & Hr & _). split; [exact Ho|].
  unfold row_of, iwith. cbn [i_open i_txns i_cont i_locks i_used i_clast]. fold (row_of I).
  pose proof (proj1 (Forall_forall _ _) (iw_txns _ W) t Ht) as Tk. destruct (chain_ne' I t Tk) as (D & ED & HD).
  pose proof (ro_len _ _ _ _ _ _ _ R t Ht) as Hlen. rewrite Hr, Elv in Hlen.
  destruct (sp_levels sp r) as [|a [|b ss]] eqn:Esl; try discriminate.
  unfold merge_child. rewrite Elv. cbn [spec_step]. rewrite Esl.
  eapply ri_set; [exact R|..]; cbn [pt_root pt_levels sp_val sp_levels]; rewrite ?Hr; auto.
  - rewrite <- Hr. apply in_map. auto.
  - apply R.
  - intros q Hq. apply upd_other. auto.
  - rewrite upd_same. cbn in Hlen |- *. destruct a; cbn; lia.
  - intros Hl. split; [auto|]. rewrite upd_same. rewrite <- Hr in Hl. pose proof (ro_other _ _ _ _ _ _ _ R t Ht Hl) as Hn.
    rewrite Hr, Esl in Hn. intros w. destruct a; cbn; intros Hi; apply Hn; cbn; tauto.
  - intros l e Hl He Hh. rewrite <- Hr. destruct Hl as [<-|Hl].
    + cbn [rl_ents] in He. apply in_app_or in He. destruct He as [He|He].
      * apply (ro_ents _ _ _ _ _ _ _ R t x e); auto. rewrite Elv. left. auto.
      * apply (ro_ents _ _ _ _ _ _ _ R t y e); auto. rewrite Elv. right. left. auto.
    + apply (ro_ents _ _ _ _ _ _ _ R t l e); auto. rewrite Elv. right. right. auto.
  - intros Hl. rewrite <- Hr in Hl. destruct (ro_hold _ _ _ _ _ _ _ R t Ht Hl) as [G1 G2 G3 G4]. rewrite Hr, Esl in *.
    rewrite Elv in G1. apply Forall2_cons_iff in G1. destruct G1 as [G1 G1']. apply Forall2_cons_iff in G1'. destruct G1' as [G1' G1''].
    assert (Ech : pt_chain t = rev (map rl_xid (y :: ls)) ++ [rl_xid x]) by (unfold pt_chain; rewrite Elv; reflexivity).
    destruct (turn_merge (rev (map rl_xid (y :: ls))) (rl_xid x) (row_of I)) as (L0 & p0 & q0 & E1 & E2 & E3).
    { cbn. destruct (rev (map rl_xid ls)); discriminate. }
    { apply R. }
    rewrite Ech in G3, G4. rewrite E3 in G3. rewrite E1 in G4. cbn [map rev] in G4. rewrite <- app_assoc in G4. cbn [app] in G4.
    apply app_last2 in G4. destruct G4 as (-> & -> & ->).
    constructor; cbn [pt_root pt_levels sp_val sp_levels]; rewrite ?upd_same.
    + destruct a as [a|]; constructor; auto; cbn [rl_ents]; intros Hn; rewrite existsb_app.
      * rewrite G1 by auto. reflexivity.
      * rewrite G1' by auto. apply orb_true_r.
    + exact G2.
    + exact G3.
    + unfold pt_chain. cbn [pt_levels map]. cbn [map] in E2. cbn [rl_xid] in *. rewrite E2. destruct a as [[v|]|]; cbn; auto.
Qed.

Lemma no_hits es op : (forall e, In e es -> hits op nm k e = true -> False) -> filter (hits op nm k) es = [].
Proof.
  induction es as [|e es IH]; intros H; [reflexivity|]. cbn. destruct (hits op nm k e) eqn:E; [exfalso; apply (H e); cbn; auto|].
  apply IH. intros e' He'. apply H. right. auto.
Qed.
Lemma no_hits2 es op : filter (hits op nm k) es = [] -> filter (fun e => hits op nm k e && en_del e) es = [].
Proof.
  induction es as [|e es IH]; [reflexivity|]. cbn. destruct (hits op nm k e); [discriminate|auto].
Qed.

Lemma row_commit I o sp r c I' t l : IWf I -> RowOk I o sp -> find_inner r c (i_txns I) = Some t ->
  pt_levels t = [l] ->
  I' = iwith I (del_pt r (i_txns I)) (isend (i_open I) (commit_msgs (pt_chain t) (rl_ents l)) (i_cont I)) (release r (i_locks I)) ->
  RowOk I' o (spec_step sp (VCommit r)).
Proof.
  intros W [Ho R] F Elv ->. apply find_inner_some in F. destruct F as (F & Ht & Hr & _). split; [exact Ho|].
  unfold row_of, iwith, isend. cbn [i_open i_txns i_cont i_locks i_used i_clast].
  rewrite rmsgs_app, arows_app, rmsgs_commit. fold (row_of I).
  pose proof (proj1 (Forall_forall _ _) (iw_txns _ W) t Ht) as Tk. destruct (chain_ne' I t Tk) as (D & ED & HD).
  assert (Hch : pt_chain t <> []) by (rewrite ED; discriminate).
  destruct (commits_ok (pt_chain t) (length (filter (fun e => hits (i_open I) nm k e && en_del e) (rl_ents l))) (row_of I) Hch (ro_awf _ _ _ _ _ _ _ R))
    as (A1 & A2 & A3).
  unfold release. cbn [spec_step]. eapply ri_del; [exact R|exact A1|..]; cbn [sp_val sp_levels].
  - intros q Hq. apply upd_other. auto.
  - destruct A2 as [A2|A2]; [left; f_equal; exact A2|right]. exists D. rewrite A2, ED, Hr. split; [auto|]. rewrite <- Hr.
    apply (proj1 (Forall_forall _ _) (iw_used _ W)). auto.
  - intros Hl. rewrite no_hits2.
    + split; [reflexivity|]. rewrite <- Hr in Hl. pose proof (ro_other _ _ _ _ _ _ _ R t Ht Hl) as Hn.
      pose proof (ro_len _ _ _ _ _ _ _ R t Ht) as Hlen. rewrite Elv in Hlen. rewrite Hr in *.
      destruct (sp_levels sp r) as [|w [|]]; try discriminate. rewrite (Hn w) by (left; auto). reflexivity.
    + apply no_hits. intros e He Hh. apply Hl. rewrite <- Hr. apply (ro_ents _ _ _ _ _ _ _ R t l e); auto. rewrite Elv. left. auto.
  - intros Hl. rewrite <- Hr in Hl. destruct (ro_hold _ _ _ _ _ _ _ R t Ht Hl) as [G1 G2 G3 G4].
    rewrite <- whead_full by exact A1. rewrite A3, whead_full by apply R. rewrite <- (cur_turn (pt_chain t)) by (auto; apply R).
    unfold cur. rewrite G4, Hr. apply sees_resv. exact G3.
Qed.

Lemma row_abort I o sp r c I' t l ls : IWf I -> RowOk I o sp -> find_inner r c (i_txns I) = Some t ->
  pt_levels t = l :: ls ->
  I' = iwith I (if is_nil ls then del_pt r (i_txns I) else set_pt (pop_level t) (i_txns I))
         (isend (i_open I) (abort_msgs (pt_chain t) (rl_ents l)) (i_cont I))
         (if is_nil ls then release r (i_locks I) else i_locks I) ->
  RowOk I' o (spec_step sp (if is_nil ls then VAbort r else VChildAbort r)).
Proof.
  intros W [Ho R] F Elv ->. apply find_inner_some in F. destruct F as (F & Ht & Hr & _). split; [exact Ho|].
  unfold row_of, iwith, isend. cbn [i_open i_txns i_cont i_locks i_used i_clast].
  rewrite rmsgs_app, arows_app, rmsgs_abort. fold (row_of I).
  pose proof (proj1 (Forall_forall _ _) (iw_txns _ W) t Ht) as Tk. destruct (chain_ne' I t Tk) as (D & ED & HD).
  assert (Hch : pt_chain t <> []) by (rewrite ED; discriminate).
  pose proof (ro_len _ _ _ _ _ _ _ R t Ht) as Hlen. rewrite Hr, Elv in Hlen.
  destruct (sp_levels sp r) as [|w ws] eqn:Esl; [discriminate|]. cbn in Hlen. injection Hlen as Hlen.
  set (n := length (filter (hits (i_open I) nm k) (rl_ents l))) in *.
  set (A' := fold_left astep (repeat (mkRmsg KAbort (pt_chain t)) n) (row_of I)).
  assert (Hno : i_locks I nm k <> Some r -> A' = row_of I).
  { intros Hl. unfold A', n. rewrite no_hits; [reflexivity|]. intros e He Hh. apply Hl. rewrite <- Hr.
    apply (ro_ents _ _ _ _ _ _ _ R t l e); auto. rewrite Elv. left. auto. }
  assert (Hyes : i_locks I nm k = Some r -> awf A' /\ (A' = row_of I \/ ar_x A' = pt_chain t)
     /\ xval (whead (ar_w (turn (pt_chain t) A'))) = sp_val sp /\ ar_l (turn (pt_chain t) A') = rev (map tox ws) ++ [XPlace]).
  { intros Hl. rewrite <- Hr in Hl. destruct (ro_hold _ _ _ _ _ _ _ R t Ht Hl) as [G1 G2 G3 G4]. rewrite Hr, Esl in *.
    destruct (aborts_ok (pt_chain t) n (row_of I) (rev (map tox ws)) (tox w) Hch (ro_awf _ _ _ _ _ _ _ R) G4) as (B1 & B2 & B3 & B4).
    split; [exact B1|]. split; [exact B2|]. fold A' in B3, B4. rewrite B3, B4. split; [exact G3|]. f_equal. f_equal.
    destruct n eqn:En; [|reflexivity]. destruct w as [w|]; [|reflexivity]. exfalso. rewrite Elv in G1.
    apply Forall2_cons_iff in G1. destruct G1 as [G1 _]. specialize (G1 ltac:(discriminate)). apply existsb_exists in G1.
    destruct G1 as (e & He & Hh). assert (Hi : In e (filter (hits (i_open I) nm k) (rl_ents l))) by (apply filter_In; auto).
    destruct (filter (hits (i_open I) nm k) (rl_ents l)); [destruct Hi|discriminate]. }
  assert (HA' : awf A').
  { destruct (holds_dec (i_locks I nm k) r) as [El|El]; [apply Hyes; auto|]. rewrite Hno by auto. apply R. }
  assert (Hused : In r (i_used I)).
  { rewrite <- Hr. apply (proj1 (Forall_forall _ _) (iw_used _ W)). auto. }
  assert (Hax : ar_x A' = ar_x (row_of I) \/ exists D, ar_x A' = r :: D /\ In r (i_used I) /\ i_locks I nm k = Some r).
  { destruct (holds_dec (i_locks I nm k) r) as [El|El]; [|rewrite Hno by auto; auto].
    destruct (Hyes El) as (_ & [B|B] & _); [left; congruence|right]. exists D. rewrite B, ED, Hr. auto. }
  destruct ls as [|l2 ls]; cbn [is_nil spec_step].
  - destruct ws; [|discriminate]. unfold release. eapply ri_del; [exact R|exact HA'|..]; cbn [sp_val sp_levels].
    + intros q Hq. apply upd_other. auto.
    + destruct Hax as [Hax|(D' & Hax & _)]; eauto.
    + intros El. auto.
    + intros El. destruct (Hyes El) as (_ & _ & B3 & B4). rewrite <- (cur_turn (pt_chain t)) by auto. unfold cur. rewrite B4. exact B3.
  - eapply ri_set; [exact R|..]; cbn [pop_level pt_root pt_levels sp_val sp_levels]; rewrite ?Hr; auto.
    + rewrite <- Hr. apply in_map. auto.
    + intros q Hq. apply upd_other. auto.
    + rewrite upd_same, Esl, Elv. exact Hlen.
    + intros El. split; [auto|]. rewrite upd_same, Esl. rewrite <- Hr in El. pose proof (ro_other _ _ _ _ _ _ _ R t Ht El) as Hn.
      rewrite Hr, Esl in Hn. cbn [tl]. intros w' Hw'. apply Hn. right. auto.
    + intros l' e Hl' He Hh. rewrite <- Hr. apply (ro_ents _ _ _ _ _ _ _ R t l' e); auto. rewrite Elv in *. right. exact Hl'.
    + intros El. destruct (Hyes El) as (_ & B2 & B3 & B4). rewrite <- Hr in El.
      destruct (ro_hold _ _ _ _ _ _ _ R t Ht El) as [G1 G2 G3 G4]. rewrite Hr, Esl in *. rewrite Elv in G1.
      apply Forall2_cons_iff in G1. destruct G1 as [_ G1].
      assert (Ech : pt_chain t = rev (map rl_xid (l2 :: ls)) ++ [rl_xid l]) by (unfold pt_chain; rewrite Elv; reflexivity).
      destruct (turn_merge (rev (map rl_xid (l2 :: ls))) (rl_xid l) A') as (L0 & p0 & q0 & E1 & E2 & E3).
      { cbn. destruct (rev (map rl_xid ls)); discriminate. }
      { exact HA'. }
      rewrite Ech in B3, B4. rewrite E3 in B3. rewrite E1 in B4.
      destruct ws as [|w2 ws]; [discriminate|].
      cbn [map rev] in B4. rewrite <- app_assoc in B4. cbn [app] in B4. apply app_last2 in B4. destruct B4 as (-> & -> & ->).
      assert (Ec2 : pt_chain (pop_level t) = rev (map rl_xid (l2 :: ls))) by (unfold pop_level, pt_chain; cbn [pt_levels]; rewrite Elv; reflexivity).
      constructor; rewrite ?Ec2; cbn [pop_level pt_root pt_levels sp_val sp_levels]; rewrite ?Hr, ?upd_same, ?Esl, ?Elv; cbn [tl].
      * exact G1.
      * intros C EC c' Hi. destruct B2 as [B2|B2]; [rewrite B2 in EC; eauto|]. rewrite B2, ED in EC. injection EC as <-.
        apply (proj1 (Forall_forall _ _) HD). auto.
      * exact B3.
      * rewrite E2. reflexivity.
Qed.

Lemma child_zero I t : txn_ok I t -> (pt_child t =? 0) = match pt_levels t with _ :: _ :: _ => false | _ => true end.
Proof.
  intros ((ls & l & E & _ & Hc & _) & _). unfold pt_child. rewrite E. destruct ls as [|a ls]; [reflexivity|]. cbn [app].
  apply Forall_cons_iff in Hc. destruct Hc as [(H & _) _]. apply N.eqb_neq in H.
  destruct (ls ++ [l]) eqn:E'; [destruct ls; discriminate|]. exact H.
Qed.

Lemma row_step I o sp x I' : IWf I -> RowOk I o sp -> istep I x = Some I' ->
  RowOk I' (name_step o x) (fold_left spec_step (row_events nm k o [x]) sp).
Proof.
  intros W RO E.
  assert (Hsame : forall J, i_open J = i_open I -> i_txns J = i_txns I -> i_cont J = i_cont I -> i_locks J = i_locks I ->
     i_used J = i_used I -> i_clast J = i_clast I -> RowOk J o sp).
  { intros J E1 E2 E3 E4 E5 E6. destruct RO as [H1 H2]. unfold RowOk, row_of. rewrite E1, E2, E3, E4, E5, E6. auto. }
  assert (Hnames : forall J (P : fnum -> bool), i_open J = filter (fun p => P (fst p)) (i_open I) ->
     (forall fn, used_by fn (i_txns I) = true -> P fn = true) ->
     i_txns J = i_txns I -> i_cont J = i_cont I -> i_locks J = i_locks I ->
     i_used J = i_used I -> i_clast J = i_clast I -> RowOk J o sp).
  { intros J P E1 HP E2 E3 E4 E5 E6. destruct RO as [H1 H2]. unfold RowOk, row_of. rewrite E1, E2, E3, E4, E5, E6. split.
    - intros fn n Hn. rewrite nlook_filter in Hn by reflexivity. apply H1. destruct (nlook fn (i_open I)) as [m|]; [|discriminate]. cbn [fst] in Hn. destruct (P fn); [exact Hn|discriminate].
    - eapply ri_names; [exact H2|]. intros t l e Ht Hl He. unfold hits, to_row. rewrite nlook_filter by reflexivity. cbn [fst].
      rewrite HP; [destruct (nlook (en_fn e) (i_open I)); reflexivity|]. apply used_by_spec. exists t, l. repeat split; auto. apply (ent_open I t l e); auto. }
  destruct x as [last|b nf nx|fn n| |r c par has fts|r has fts|r c [p|]|r c|r c|r|fn n|fn n|fn r c k' w|[|]]; cbn [name_step].
  - cbn [istep row_events fold_left] in *. destruct (_ <=? _); [|discriminate]. destruct (forallb _ _); [|discriminate]. injection E as <-. apply Hsame; reflexivity.
  - injection E as <-. exact RO.
  - cbn [istep row_events fold_left] in *. destruct (nlook _ _); [destruct (_ =? _); [|discriminate]|]; injection E as <-; exact RO.
  - injection E as <-. exact RO.
  - injection E as <-. exact RO.
  - cbn [istep row_events fold_left] in *. destruct (find_pt _ _) as [t|]; [|discriminate]. destruct (pt_prep t); [|discriminate]. injection E as <-. exact RO.
  - apply (row_child I o sp r c p); auto.
  - cbn [row_events fold_left]. assert (c = 0).
    { cbn [istep] in E. destruct (N.eqb_spec c TXNID_NONE); [auto|discriminate]. }
    subst c. apply (row_begin I); auto.
  - cbn [istep row_events fold_left] in *. destruct (find_inner r c (i_txns I)) as [t|] eqn:F; [|discriminate].
    pose proof (find_inner_some _ _ _ _ F) as (_ & Ht & Hr & Hc).
    pose proof (child_zero I t (proj1 (Forall_forall _ _) (iw_txns _ W) t Ht)) as Hz. rewrite Hc in Hz. rewrite Hz.
    destruct (pt_levels t) as [|l [|y ls]] eqn:Elv; [discriminate|..]; injection E as <-.
    + eapply row_commit; eauto.
    + eapply row_merge; eauto.
  - cbn [istep row_events fold_left] in *. destruct (find_inner r c (i_txns I)) as [t|] eqn:F; [|discriminate].
    pose proof (find_inner_some _ _ _ _ F) as (_ & Ht & Hr & Hc).
    pose proof (child_zero I t (proj1 (Forall_forall _ _) (iw_txns _ W) t Ht)) as Hz. rewrite Hc in Hz. rewrite Hz.
    destruct (pt_levels t) as [|l ls] eqn:Elv; [discriminate|]. injection E as <-.
    pose proof (row_abort I o sp r c _ t l ls W RO F Elv eq_refl) as H. destruct ls; exact H.
  - cbn [istep row_events fold_left] in *. destruct (find_inner r TXNID_NONE (i_txns I)) as [t|] eqn:F; [|discriminate].
    pose proof (find_inner_some _ _ _ _ F) as (_ & Ht & Hr & _). destruct (negb (pt_prep t)); [|discriminate]. injection E as <-.
    destruct RO as [Ho R]. split; [exact Ho|]. unfold row_of, iwith. cbn [i_open i_txns i_cont i_locks i_used i_clast]. fold (row_of I).
    eapply ri_set; [exact R|..]; cbn [pt_root pt_levels]; auto.
    + rewrite <- Hr. apply in_map. auto.
    + apply R.
    + rewrite <- Hr. apply R; auto.
    + intros Hl. split; [auto|]. rewrite <- Hr in *. apply (ro_other _ _ _ _ _ _ _ R t Ht Hl).
    + intros l e Hl He Hh. rewrite <- Hr. apply (ro_ents _ _ _ _ _ _ _ R t l e); auto.
    + intros Hl. rewrite <- Hr in Hl. destruct (ro_hold _ _ _ _ _ _ _ R t Ht Hl) as [G1 G2 G3 G4].
      rewrite Hr in *. constructor; cbn [pt_root pt_levels]; auto.
  - cbn [istep row_events fold_left] in *. destruct (nlook fn (i_open I)) as [|] eqn:En; [discriminate|]. cbn [is_some negb] in E.
    destruct (negb _); [|discriminate]. injection E as <-. destruct RO as [Ho R]. split.
    + cbn [i_open]. intros g m. cbn [nlook]. destruct (fn =? g); auto.
    + unfold row_of. cbn [i_open i_txns i_cont i_locks i_used i_clast]. eapply ri_names; [exact R|].
      intros t l e Ht Hl He. destruct (ent_open I t l e W Ht Hl He) as [_ H]. unfold hits, to_row. cbn [nlook].
      destruct (N.eqb_spec fn (en_fn e)) as [Ef|]; [|reflexivity]. congruence.
  - cbn [istep row_events fold_left] in *. destruct (nlook fn (i_open I)) as [m|] eqn:En; [|discriminate]. destruct (m =? n); [|discriminate].
    destruct (used_by fn (i_txns I)) eqn:Hu; [discriminate|]. injection E as <-.
    apply (Hnames _ (fun g => negb (g =? fn))); try reflexivity. intros g Hg. destruct (N.eqb_spec g fn); [congruence|reflexivity].
  - apply (row_write I); auto.
  - cbn [istep row_events fold_left] in *. injection E as <-. apply (Hnames _ (fun g => used_by g (i_txns I))); try reflexivity. auto.
  - injection E as <-. exact RO.
Qed.

Lemma row_events_app l1 : forall o l2,
  row_events nm k o (l1 ++ l2) = row_events nm k o l1 ++ row_events nm k (fold_left name_step l1 o) l2.
Proof.
  induction l1 as [|x l1 IH]; intros o l2; [reflexivity|]. cbn [app fold_left].
  destruct x as [last|b nf nx|fn n| |r c par has fts|r has fts|r c [p|]|r c|r c|r|fn n|fn n|fn r c k' w|[|]];
    cbn [row_events name_step app]; rewrite IH; try reflexivity.
  rewrite app_assoc. reflexivity.
Qed.
Lemma spec_of_rev l es : spec_of (rev (l ++ es)) = fold_left spec_step es (spec_of (rev l)).
Proof.
  revert l. induction es as [|e es IH]; intros l; [now rewrite app_nil_r|].
  replace (l ++ e :: es) with ((l ++ [e]) ++ es) by (now rewrite <- app_assoc). rewrite IH. cbn [fold_left]. f_equal.
  rewrite rev_app_distr. reflexivity.
Qed.

Lemma row_init : RowOk ist_init [] (spec_of []).
Proof.
  split; [cbn; discriminate|]. constructor; cbn; try discriminate; try tauto. apply awf_init.
Qed.

Theorem row_run log : forall I, irun ist_init log = Some I ->
  RowOk I (fold_left name_step log []) (spec_of (rev (row_events nm k [] log))).
Proof.
  induction log as [|x log IH] using rev_ind; intros I E; [injection E as <-; apply row_init|].
  rewrite irun_snoc in E. destruct (irun ist_init log) as [J|] eqn:EJ; [|discriminate].
  rewrite fold_left_app, row_events_app, spec_of_rev. cbn [fold_left].
  apply (row_step J); auto. apply (irun_wf log ist_init); auto using IWf_init.
Qed.

(** A row nobody has locked holds its committed value. *)
Theorem row_free log I : irun ist_init log = Some I -> i_locks I nm k = None ->
  xval (cur (arows (rmsgs k (i_cont I nm)))) = committed nm k log.
Proof. intros E El. destruct (row_run log I E) as [_ R]. apply (ro_none _ _ _ _ _ _ _ R El). Qed.

(** A locked row shows what its holder wrote, and keeps the committed value below. *)
Theorem row_locked log I t : irun ist_init log = Some I -> In t (i_txns I) -> i_locks I nm k = Some (pt_root t) ->
  let sp := spec_of (rev (row_events nm k [] log)) in
  xval (cur (arows (rmsgs k (i_cont I nm)))) = sees (sp_levels sp (pt_root t)) (sp_val sp)
  /\ xval (whead (ar_w (turn (pt_chain t) (arows (rmsgs k (i_cont I nm)))))) = committed nm k log.
Proof.
  intros E Ht El sp. destruct (row_run log I E) as [_ R]. destruct (ro_hold _ _ _ _ _ _ _ R t Ht El) as [G1 G2 G3 G4].
  split; [|exact G3]. pose proof (irun_wf log ist_init I IWf_init E) as W.
  destruct (chain_ne' I t (proj1 (Forall_forall _ _) (iw_txns _ W) t Ht)) as (D & ED & _).
  rewrite <- (cur_turn (pt_chain t)); [|rewrite ED; discriminate|apply R].
  unfold cur. unfold row_of in G4. rewrite G4. apply sees_resv. exact G3.
Qed.
End Row.
