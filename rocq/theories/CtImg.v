(** * What the checkpoint in progress will capture, and how steps change it *)
From Coq Require Import List Bool NArith Lia.
From Verif Require Import Base CtModel CtSpec CtProofs CtInv.
Import ListNotations.
Local Open Scope N_scope.

Section S.
Variable V : Type.
Notation cst := (cst V).
Notation pair := (pair V).

Ltac dg H := match type of H with
  | (if ?b then _ else None) = Some _ => let E := fresh "G" in destruct b eqn:E; [|discriminate H]
  | match ?b with Some _ => _ | None => None end = Some _ => let E := fresh "G" in destruct b eqn:E; [|discriminate H]
  end.

Definition pend (s : cst) (k : ckey) : bool := match c_tab s k with Some p => p_pend p | None => false end.

Lemma img_write : forall (p p' : pair) cl c i c' i' l u r, K p ROwed c i l u -> wfc p cl c i p' c' i' -> r = RFree ->
  imgl p' r c' i' = imgl p ROwed c i.
Proof.
  intros p p' cl c i c' i' l u r HK W ->. unfold wfc in W. destruct p as [v d n pe lk cl0]. cbn in *.
  unfold K in HK; cbn in HK. destruct HK as (K1 & K2 & K3 & K4 & K5 & K6 & K7 & K8 & K9).
  rewrite (K9 eq_refl) in *. assert (i = c) by auto. assert (cl0 = None). { destruct cl0; auto. destruct K6 as (_ & _ & ?); discriminate. }
  subst. unfold imgl. cbn.
  destruct W as [(-> & -> & -> & ->)|(-> & _ & w & -> & [(-> & -> & -> & ->)|(-> & -> & -> & ->)])]; cbn; try reflexivity.
  destruct v as [v|]; [|reflexivity]. destruct n.
  - destruct K3; [reflexivity|discriminate|discriminate].
  - exact (K2 eq_refl eq_refl v eq_refl).
Qed.

Lemma img_ckpair : forall (p p' : pair) cl c i c' i' l u, K p RUn c i l u -> p_pend p = true -> wfc p cl c i p' c' i' ->
  imgl (with_pend p' false) RUn c' i' = imgl p RUn c i.
Proof.
  intros p p' cl c i c' i' l u HK PP W. unfold wfc in W. destruct p as [v d n pe lk cl0]. cbn in *. subst pe.
  unfold K in HK; cbn in HK. destruct HK as (K1 & K2 & K3 & K4 & K5 & K6 & K7 & K8 & K9).
  assert (i = c) by auto. assert (cl0 = None). { destruct cl0; auto. destruct K6 as (_ & ? & _); discriminate. }
  subst. unfold imgl. cbn.
  destruct W as [(-> & -> & -> & ->)|(-> & _ & w & -> & [(-> & -> & -> & ->)|(-> & -> & -> & ->)])]; cbn; try reflexivity.
  destruct v as [v|]; [|reflexivity]. destruct n.
  - destruct K3; [reflexivity|discriminate|discriminate].
  - exact (K2 eq_refl eq_refl v eq_refl).
Qed.

Lemma img_evfree : forall (p : pair) r c i l u, K p r c i l u -> p_dirty p = false -> p_clone p = None ->
  r = RBusy \/ (exists fc, r = REv fc) ->
  imgl (with_lock p None) RUn c i = imgl p r c i /\ imgl p r c i = i.
Proof.
  intros p r c i l u HK D CL R. destruct p as [v d n pe lk cl0]. cbn in *. subst.
  unfold K in HK; cbn in HK. destruct HK as (K1 & K2 & K3 & K4 & K5 & K6 & K7 & K8 & K9).
  unfold imgl. cbn.
  assert (CI : pe = true \/ owedb r = true -> i = c) by (intros [?|?]; auto).
  assert (CV : match v with Some w => Some w | None => c end = c).
  { destruct v as [v|]; [|reflexivity]. destruct n.
    - destruct K3; [reflexivity|discriminate|]. destruct R as [->|(fc & ->)]; discriminate.
    - symmetry. exact (K2 eq_refl eq_refl v eq_refl). }
  rewrite CV. destruct pe; cbn; [split; [reflexivity|symmetry; auto]|].
  destruct (owedb r); auto. split; auto. symmetry; auto.
Qed.

Lemma img_evwrite : forall (p : pair) fc v c i l u, K p (REv fc) c i l u -> p_clone p = None -> p_val p = Some v ->
  imgl (cleaned p None) (REv fc) (Some v) (if fc then Some v else i) = imgl p (REv fc) c i.
Proof.
  intros p fc w c i l u HK CL PV. destruct p as [v d n pe lk cl0]. cbn in *. subst.
  unfold K in HK; cbn in HK. destruct HK as (K1 & K2 & K3 & K4 & K5 & K6 & K7 & K8 & K9).
  rewrite (K8 fc eq_refl) in *. unfold imgl. cbn. destruct fc; reflexivity.
Qed.

Lemma img_clone : forall (p : pair) r c i l u w, K p r c i l u -> p_clone p = Some w ->
  imgl (mkPair (p_val p) (p_dirty p) (p_nd p) (p_pend p) (p_lock p) None) r (Some w) (Some w) = imgl p r c i.
Proof.
  intros p r c i l u w HK CL. destruct p as [v d n pe lk cl0]. cbn in *. subst.
  unfold K in HK; cbn in HK. destruct HK as (K1 & K2 & K3 & K4 & K5 & K6 & K7 & K8 & K9).
  destruct K6 as (_ & -> & R); [discriminate|]. unfold imgl. cbn. rewrite R. reflexivity.
Qed.

(** Clearing bits changes no image. *)
Lemma img_clear : forall (s s' : cst) t ks todo x,
  Inv s -> clear_bits s t ks = Some (s', todo) ->
  (forall k, trole k (c_thr s t) <> RFree -> In k ks) ->
  (forall k, In k ks -> trole k (c_thr s t) = RFree \/ trole k (c_thr s t) = RBusy) ->
  img (set_thr s' t (TRun todo)) x = img s x.
Proof.
  intros s s' t ks todo x HI C A B. apply clear_bits_spec in C.
  destruct C as (C1 & C2 & C3 & C4 & C5 & C6 & C7 & C8 & C9 & C10 & C11 & C12).
  destruct (mem x ks) eqn:M.
  - apply mem_In in M as I1. destruct (C10 x I1) as (p & P1 & P2).
    unfold img. cbn. rewrite C9, M, P1, C2, C3, C6. cbn. unfold prole. cbn. rewrite P2, fupd_same. cbn.
    assert (RR := B x I1).
    assert (OW : owedb (trole x (c_thr s t)) = false) by (destruct RR as [E|E]; rewrite E; reflexivity).
    unfold imgl. cbn. rewrite OW, orb_false_r.
    destruct (p_pend p) eqn:PP.
    + replace (mem x todo) with true; [reflexivity|]. symmetry. apply mem_In, C12. eauto.
    + replace (mem x todo) with false; [reflexivity|]. symmetry. apply mem_false. rewrite C12. intros (_ & q & Q1 & Q2). congruence.
  - apply img_frame; cbn; rewrite ?C9, ?M, ?C2, ?C3, ?C6; auto.
    intros p t' P1 P2. unfold fupd. destruct (N.eqb_spec t' t) as [E|]; [|reflexivity]. subst t'. cbn.
    assert (NI : ~ In x ks) by (apply mem_false; exact M).
    replace (mem x todo) with false by (symmetry; apply mem_false; rewrite C12; tauto).
    destruct (trole x (c_thr s t)) eqn:TR; try reflexivity; exfalso; apply NI, A; rewrite TR; discriminate.
Qed.

Lemma img_add : forall (s : cst) k p t x, c_tab s k = None -> c_thr s t = TRun [] -> p_lock p = Some t ->
  p_pend p = false -> p_clone p = None -> img (add_pair s k p) x = img s x.
Proof.
  intros s k p t x T TH LK PP CL. destruct (N.eq_dec x k) as [->|NX].
  - unfold img. cbn. rewrite fupd_same, T. unfold prole, imgl. rewrite LK, TH, PP, CL. reflexivity.
  - apply img_frame; cbn; auto. apply fupd_other. exact NX.
Qed.

(** One page and one thread change. *)
Lemma img_one : forall (s s' : cst) k p p' t h x,
  c_tab s k = Some p ->
  (forall y, y <> k -> c_tab s' y = c_tab s y /\ c_cur s' y = c_cur s y /\ c_inp s' y = c_inp s y) ->
  c_tab s' k = Some p' ->
  (forall t', c_thr s' t' = fupd (c_thr s) t h t') ->
  (forall y, y <> k -> trole y h = trole y (c_thr s t)) ->
  imgl p' (match p_lock p' with None => RUn | Some t' => if t' =? t then trole k h else trole k (c_thr s t') end) (c_cur s' k) (c_inp s' k)
    = imgl p (prole (c_thr s) k p) (c_cur s k) (c_inp s k) ->
  img s' x = img s x.
Proof.
  intros s s' k p p' t h x T E1 T' E2 R1 HI. destruct (N.eq_dec x k) as [->|NX].
  - unfold img. rewrite T', T, <- HI. f_equal. unfold prole. destruct (p_lock p') as [t'|]; [|reflexivity].
    rewrite E2. unfold fupd. destruct (t' =? t); reflexivity.
  - destruct (E1 x NX) as (A & B & C). apply img_frame; auto. intros q t' Q1 Q2. rewrite E2. unfold fupd.
    destruct (N.eqb_spec t' t) as [E|]; [subst; auto|reflexivity].
Qed.

Lemma img_one' : forall (s s' : cst) k p p' x,
  c_tab s k = Some p ->
  (forall y, y <> k -> c_tab s' y = c_tab s y /\ c_cur s' y = c_cur s y /\ c_inp s' y = c_inp s y) ->
  c_tab s' k = Some p' -> c_thr s' = c_thr s ->
  imgl p' (prole (c_thr s) k p') (c_cur s' k) (c_inp s' k) = imgl p (prole (c_thr s) k p) (c_cur s k) (c_inp s k) ->
  img s' x = img s x.
Proof.
  intros s s' k p p' x T E1 T' E2 HI. destruct (N.eq_dec x k) as [->|NX].
  - unfold img. rewrite T', T, <- HI, E2. reflexivity.
  - destruct (E1 x NX) as (A & B & C). apply img_frame; auto. intros q t' Q1 Q2. rewrite E2. reflexivity.
Qed.

Theorem step_img : forall (s s' : cst) o x, Inv s -> running (c_ck s) = true -> cstep s o = Some s' -> o <> OEnd ->
  running (c_ck s') = true /\
  img s' x = match o with
             | OMod t us => match lastv us x with Some v => if pend s x then Some v else img s x | None => img s x end
             | ORemove t k => if (x =? k) && pend s x then None else img s x
             | _ => img s x
             end.
Proof.
  intros s s' o x HI RN E NE.
  assert (OT : forall k (p' : pair) y, y <> k -> fupd (c_tab s) k (Some p') y = c_tab s y /\ c_cur s y = c_cur s y /\ c_inp s y = c_inp s y)
    by (intros; rewrite fupd_other by assumption; auto).
  destruct o as [t|t|t k|t deps|t k deps|t k|t cl|t us|t k|t k v deps|t k|t k t'|t k|t|t|t rm| |k cl|k|];
    cbn [cstep] in E; try congruence.
  - dg E. injection E as <-. auto.
  - dg E. injection E as <-. auto.
  - (* lock *)
    dg E. dg E. dg E. apply idle_run in G. injection E as <-. destruct (p_lock p) as [|] eqn:LK; [discriminate|].
    split; [exact RN|]. eapply (img_one s _ k p (with_lock p (Some t)) t (TLock k)); cbn; eauto using fupd_same.
    + intros y NX. rewrite G. cbn. destruct (N.eqb_spec y k); congruence.
    + rewrite !N.eqb_refl. unfold prole. rewrite LK. reflexivity.
  - (* resolve *)
    destruct (c_thr s t) as [|k| |] eqn:TH; try discriminate.
    destruct (clear_bits s t (k :: deps)) as [[s1 todo]|] eqn:C; [|discriminate]. injection E as <-.
    split.
    { apply clear_bits_spec in C. destruct C as (C1 & C2 & C3 & C4 & C5 & _). cbn. rewrite C5. exact RN. }
    apply (img_clear s s1 t (k :: deps)); auto; intros y; rewrite TH; cbn; destruct (N.eqb_spec y k); subst; auto; congruence.
  - (* miss *)
    dg E. dg E. dg E. apply idle_run in G. destruct (c_tab s k) eqn:T; [discriminate|].
    destruct (clear_bits _ t deps) as [[s1 todo]|] eqn:C; [|discriminate]. injection E as <-.
    split.
    { apply clear_bits_spec in C. destruct C as (C1 & C2 & C3 & C4 & C5 & _). cbn. rewrite C5. exact RN. }
    etransitivity; [eapply img_clear; [|exact C| |]|].
    + apply (inv_add V s k _ t); auto. intros. apply K_miss; auto.
    + intros y. cbn. rewrite G. cbn. congruence.
    + intros y. cbn. rewrite G. cbn. auto.
    + apply (img_add s k _ t); auto.
  - (* fetch *)
    dg E. dg E. apply owns_true in G0. destruct (p_val p) eqn:PV; [discriminate|]. dg E. injection E as <-.
    split; [exact RN|]. eapply (img_one' s _ k p); cbn; eauto using fupd_same.
    assert (HK := Kat_get V s k p t HI G G0). unfold prole. cbn. rewrite G0. unfold imgl. cbn. rewrite PV, G1.
    destruct HK as (K1 & _). destruct (K1 PV) as (_ & _ & _ & CL). rewrite CL. reflexivity.
  - (* write *)
    destruct (c_thr s t) as [[|k todo]| | |] eqn:TH; try discriminate.
    dg E. dg E. injection E as <-.
    destruct (I_thr s HI t k) as (q & Q1 & Q2); [rewrite TH; cbn; rewrite N.eqb_refl; discriminate|].
    rewrite G in Q1. injection Q1 as <-.
    assert (ND := I_nodup s HI t _ TH). inversion ND as [|a b ND1 ND2]; subst a b.
    destruct (wfc_sound _ _ _ _ _ _ G0 G) as (W1 & W2 & W3 & W4 & W5 & W6 & W7 & p' & W8 & W9 & W10 & W11).
    assert (HK := Kat_get V s k p t HI G Q2). rewrite TH in HK. cbn in HK. rewrite N.eqb_refl in HK. cbn in HK.
    split; [cbn; rewrite W3; exact RN|].
    eapply (img_one s _ k p p' t (TRun todo)); cbn; eauto.
    + rewrite W4. auto.
    + intros y NX. rewrite TH. cbn. destruct (N.eqb_spec y k); [congruence|reflexivity].
    + rewrite W9, Q2, N.eqb_refl. unfold prole. rewrite Q2, TH. cbn. rewrite N.eqb_refl. cbn.
      replace (mem k todo) with false by (symmetry; apply mem_false; exact ND1).
      eapply img_write; eauto.
  - (* modify *)
    dg E. apply idle_run in G. apply modify_spec in E.
    destruct E as (C1 & C2 & C3 & C4 & C5 & C6 & C7 & C8 & C9 & C10).
    split; [rewrite C5; exact RN|].
    unfold img, pend. rewrite C9, C2, C3, C6. destruct (lastv us x) as [v|] eqn:LV; [|reflexivity].
    destruct (C10 x v LV) as (p & w & P1 & P2 & P3). rewrite P1. cbn. unfold prole. cbn. rewrite P2, G. unfold imgl. cbn.
    rewrite P3. destruct (p_pend p); reflexivity.
  - (* unpin *)
    dg E. dg E. dg E. dg E. injection E as <-. apply idle_run in G. apply owns_true in G1.
    split; [exact RN|]. eapply (img_one' s _ k p); cbn; eauto using fupd_same.
    unfold prole. cbn. rewrite G1, G. reflexivity.
  - (* put *)
    dg E. dg E. dg E. apply idle_run in G. destruct (c_tab s k) eqn:T; [discriminate|].
    destruct (clear_bits _ t deps) as [[s1 todo]|] eqn:C; [|discriminate]. injection E as <-.
    split.
    { apply clear_bits_spec in C. destruct C as (C1 & C2 & C3 & C4 & C5 & _). cbn. rewrite C5. exact RN. }
    etransitivity; [eapply img_clear; [|exact C| |]|].
    + apply (inv_add V s k _ t); auto. intros. apply K_put; auto.
    + intros y. cbn. rewrite G. cbn. congruence.
    + intros y. cbn. rewrite G. cbn. auto.
    + apply (img_add s k _ t); auto.
  - (* remove *)
    dg E. dg E. dg E. dg E. injection E as <-. apply idle_run in G. apply owns_true in G1.
    destruct (p_clone p) eqn:CL; [discriminate|].
    split; [cbn; destruct (c_ck s); [reflexivity|discriminate]|].
    unfold img, pend. cbn. unfold fupd at 1. destruct (N.eqb_spec x k) as [->|NX].
    + rewrite G0. cbn. unfold prole, imgl. rewrite G1, G, CL. cbn. rewrite orb_false_r.
      destruct (p_pend p); [apply fupd_same|reflexivity].
    + rewrite fupd_other by exact NX. destruct (p_pend p); rewrite ?fupd_other by exact NX; reflexivity.
  - (* hand over *)
    dg E. dg E. dg E. injection E as <-. repeat (apply andb_true_iff in G as [G ?]).
    apply idle_run in G. apply idle_run in H1. apply owns_true in G1.
    split; [exact RN|]. eapply (img_one' s _ k p); cbn; eauto using fupd_same.
    unfold prole. cbn. rewrite G1, G, H1. reflexivity.
  - (* evictor locks *)
    dg E. dg E. dg E. dg E. apply idle_run in G. injection E as <-. destruct (p_lock p) as [|] eqn:LK; [discriminate|].
    split; [exact RN|]. eapply (img_one s _ k p (with_lock p (Some t)) t (TEv k)); cbn; eauto using fupd_same.
    + intros y NX. rewrite G. cbn. destruct (N.eqb_spec y k); congruence.
    + rewrite !N.eqb_refl. unfold prole. rewrite LK. reflexivity.
  - (* evictor starts on the writer thread *)
    destruct (c_thr s t) as [| |k|] eqn:TH; try discriminate. dg E. injection E as <-.
    destruct (ev_lock V s t k HI (or_introl TH)) as (q & Q1 & Q2 & _). rewrite G in Q1. injection Q1 as <-.
    split; [exact RN|]. eapply (img_one s _ k p (with_pend p false) t (TEvx k (p_pend p))); cbn; eauto using fupd_same.
    + intros y NX. rewrite TH. cbn. destruct (N.eqb_spec y k); congruence.
    + rewrite Q2, !N.eqb_refl. unfold prole. rewrite Q2, TH. cbn. rewrite N.eqb_refl. unfold imgl. cbn.
      destruct (p_pend p); reflexivity.
  - (* evictor writes *)
    destruct (c_thr s t) as [| | |k fc] eqn:TH; try discriminate. dg E. destruct (p_dirty p) eqn:D; [|discriminate].
    destruct (ev_lock V s t k HI (or_intror (ex_intro _ fc TH))) as (q & Q1 & Q2 & _). rewrite G in Q1. injection Q1 as <-.
    unfold write_locked_pair in E. destruct (p_clone p) eqn:CL; [discriminate|]. rewrite D in E.
    destruct (p_val p) as [v|] eqn:PV; [|discriminate]. injection E as <-.
    split; [exact RN|]. eapply (img_one' s _ k p (cleaned p None)); cbn; eauto using fupd_same.
    + intros y NX. rewrite !fupd_other by exact NX. destruct fc; rewrite ?fupd_other by exact NX; auto.
    + unfold prole. cbn. rewrite Q2, fupd_same. assert (HK := Kat_get V s k p t HI G Q2). rewrite TH in *. cbn in *. rewrite N.eqb_refl in *.
      destruct fc; rewrite ?fupd_same.
      * exact (img_evwrite p true v _ _ _ _ HK CL PV).
      * exact (img_evwrite p false v _ _ _ _ HK CL PV).
  - (* evictor frees *)
    assert (EV : exists k, (c_thr s t = TEv k \/ exists fc, c_thr s t = TEvx k fc) /\
       (do q <- c_tab s k; guard negb (p_dirty q); guard (match p_clone q with None => true | Some _ => false end);
          let s1 := if rm then rem_pair s k else set_pair s k (with_lock q None) in
          let s2 := set_thr s1 t (TRun []) in
          Some (mkC (c_tab s2) (c_keys s2) (c_cur s2) (c_inp s2) (c_last s2) (c_ck s2) (c_thr s2) (c_users s2) (del t (c_exps s2)))) = Some s').
    { destruct (c_thr s t) as [| |k|k fc] eqn:TH; try discriminate; exists k; eauto. }
    clear E. destruct EV as (k & TH & E). cbv zeta in E. dg E. dg E. dg E. injection E as <-.
    destruct (ev_lock V s t k HI TH) as (q & Q1 & Q2 & Q3). rewrite G in Q1. injection Q1 as <-.
    apply negb_true_iff in G0. destruct (p_clone p) eqn:CL; [discriminate|].
    assert (R1 : forall y, y <> k -> trole y (c_thr s t) = RFree).
    { intros y NX. destruct TH as [TH|(fc & TH)]; rewrite TH; cbn; destruct (N.eqb_spec y k); congruence. }
    destruct (img_evfree p _ _ _ _ _ (Kat_get V s k p t HI G Q2) G0 CL Q3) as (F1 & F2).
    split; [cbn; destruct rm; cbn; destruct (c_ck s); [reflexivity|discriminate|reflexivity|discriminate]|].
    destruct rm.
    + destruct (N.eq_dec x k) as [->|NX].
      * unfold img. cbn. rewrite fupd_same, G. unfold prole. rewrite Q2, F2. reflexivity.
      * apply img_frame; cbn; auto. { apply fupd_other; exact NX. }
        intros q t' P1 P2. unfold fupd. destruct (N.eqb_spec t' t) as [E|]; [subst; rewrite R1; auto|reflexivity].
    + eapply (img_one s _ k p (with_lock p None) t (TRun [])); cbn; eauto using fupd_same.
      * intros y NX. rewrite R1; auto.
      * unfold prole. rewrite Q2. exact F1.
  - (* begin *)
    dg E. dg E. destruct (c_ck s); discriminate.
  - (* the checkpoint thread takes a page *)
    dg E. dg E. dg E. dg E. dg E. dg E. injection E as <-. destruct (p_lock p) eqn:LK; [discriminate|].
    assert (HK := Kat_get_un V s k p HI G1 LK).
    split; [reflexivity|].
    assert (WW : c_thr c = c_thr s /\
       (forall y, y <> k -> c_tab c y = c_tab s y /\ c_cur c y = c_cur s y /\ c_inp c y = c_inp s y) /\
       p_lock p0 = None /\ imgl (with_pend p0 false) RUn (c_cur c k) (c_inp c k) = imgl p RUn (c_cur s k) (c_inp s k)).
    { destruct (p_pend p) eqn:PP.
      - destruct (wfc_sound _ _ _ _ _ _ G3 G1) as (W1 & W2 & W3 & W4 & W5 & W6 & W7 & p' & W8 & W9 & W10 & W11).
        rewrite G4 in W8. injection W8 as <-. rewrite W9. repeat (split; [assumption|]). eapply img_ckpair; eauto.
      - injection G3 as <-. rewrite G1 in G4. injection G4 as <-. do 3 (split; [auto|]).
        unfold imgl. cbn. rewrite PP. reflexivity. }
    destruct WW as (W4 & W7 & LK0 & HK2).
    eapply (img_one' s _ k p (with_pend p0 false)); cbn; eauto using fupd_same.
    + intros y NX. rewrite fupd_other by exact NX. auto.
    + unfold prole. cbn. rewrite LK0, LK. exact HK2.
  - (* a clone is written *)
    dg E. destruct (p_clone p) as [w|] eqn:CL; [|discriminate]. injection E as <-.
    split; [exact RN|]. eapply (img_one' s _ k p); cbn; eauto using fupd_same.
    + intros y NX. rewrite !fupd_other by exact NX. auto.
    + rewrite !fupd_same. eapply img_clone; [|exact CL]. exact (I_K s HI k p G).
Qed.

(** At begin the image is the content; at end it is what the checkpoint map holds. *)
Lemma begin_img : forall (s s' : cst) x, Inv s -> cstep s OBegin = Some s' ->
  running (c_ck s') = true /\ img s' x = content s x.
Proof.
  intros s s' x HI E. cbn [cstep] in E. dg E. dg E. injection E as <-. split; [reflexivity|].
  unfold img, content. cbn. destruct (c_tab s x) as [p|]; cbn; [|reflexivity]. reflexivity.
Qed.

Lemma end_img : forall (s s' : cst) x, Inv s -> cstep s OEnd = Some s' -> c_last s' x = img s x.
Proof.
  intros s s' x HI E. cbn [cstep] in E. dg E. dg E. injection E as <-. cbn.
  apply andb_true_iff in G0 as [G0 NC]. destruct l; [|discriminate].
  unfold img. destruct (c_tab s x) as [p|] eqn:T; [|reflexivity].
  assert (HK := I_K s HI x p T). rewrite G in HK. cbn in HK.
  destruct HK as (K1 & K2 & K3 & K4 & K5 & K6 & K7 & K8 & K9).
  assert (CL := no_clones_sound V s x p HI NC T). unfold imgl. rewrite CL.
  destruct (p_pend p || owedb (prole (c_thr s) x p)) eqn:PO; [|reflexivity].
  apply orb_true_iff in PO. apply K4 in PO. discriminate.
Qed.

End S.
Arguments pend {V}.
