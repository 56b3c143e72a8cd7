(** * Proofs about the cachetable's checkpoint protocol *)
From Coq Require Import List Bool NArith Lia.
From Verif Require Import Base CtModel CtSpec.
Import ListNotations.
Local Open Scope N_scope.

Lemma mem_In : forall k l, mem k l = true <-> In k l.
Proof.
  intros k l. unfold mem. rewrite existsb_exists. split.
  - intros (x & I1 & E). apply N.eqb_eq in E. subst x. exact I1.
  - intros I1. exists k. split; auto. apply N.eqb_refl.
Qed.
Lemma mem_false : forall k l, mem k l = false <-> ~ In k l.
Proof. intros k l. rewrite <- mem_In. destruct (mem k l); split; congruence. Qed.
Lemma del_In : forall k x l, In x (del k l) <-> In x l /\ x <> k.
Proof.
  intros k x l. unfold del. rewrite filter_In. destruct (N.eqb_spec x k); cbn; split; intuition congruence.
Qed.
Lemma fupd_same : forall A (f : N -> A) k a, fupd f k a k = a.
Proof. intros. unfold fupd. rewrite N.eqb_refl. reflexivity. Qed.
Lemma fupd_other : forall A (f : N -> A) k a x, x <> k -> fupd f k a x = f x.
Proof. intros. unfold fupd. destruct (N.eqb_spec x k); congruence. Qed.

(** The part a thread plays for the page [k] it has locked. *)
Inductive role := RUn | RFree | RBusy | ROwed | REv (fc : bool).

Definition trole (k : ckey) (h : thr) : role :=
  match h with
  | TRun todo => if mem k todo then ROwed else RFree
  | TLock k' | TEv k' => if k =? k' then RBusy else RFree
  | TEvx k' fc => if k =? k' then REv fc else RFree
  end.

Definition owedb (r : role) : bool := match r with ROwed | REv true => true | _ => false end.

Section Proofs.
Variable V : Type.
Notation cst := (cst V).
Notation pair := (pair V).

Definition prole (th : ctid -> thr) (k : ckey) (p : pair) : role :=
  match p_lock p with None => RUn | Some t => trole k (th t) end.

Definition inl (ck : option (list ckey)) (k : ckey) : bool :=
  match ck with Some l => mem k l | None => false end.
Definition running (ck : option (list ckey)) : bool := match ck with Some _ => true | None => false end.

(** What holds of every cached page. *)
Definition K (p : pair) (r : role) (cur inp : option V) (inlist run : bool) : Prop :=
  (p_val p = None -> p_dirty p = false /\ p_nd p = false /\ (r = RFree \/ r = ROwed) /\ p_clone p = None)
  /\ (p_dirty p = false -> p_nd p = false -> forall v, p_val p = Some v ->
        match p_clone p with None => cur = Some v | Some c => c = v end)
  /\ (p_nd p = true -> p_dirty p = true \/ r = RFree)
  /\ (p_pend p = true \/ owedb r = true -> inlist = true)
  /\ (inlist = true -> run = true)
  /\ (p_clone p <> None -> run = true /\ p_pend p = false /\ owedb r = false)
  /\ (p_pend p = true \/ owedb r = true \/ p_clone p <> None -> inp = cur)
  /\ (forall fc, r = REv fc -> p_pend p = false)
  /\ (r = ROwed -> p_pend p = false).

Definition Kat (s : cst) (k : ckey) : Prop :=
  forall p, c_tab s k = Some p ->
    K p (prole (c_thr s) k p) (c_cur s k) (c_inp s k) (inl (c_ck s) k) (running (c_ck s)).

Record Inv (s : cst) : Prop := {
  I_keys : forall k, In k (c_keys s) <-> c_tab s k <> None;
  I_thr : forall t k, trole k (c_thr s t) <> RFree -> exists p, c_tab s k = Some p /\ p_lock p = Some t;
  I_nodup : forall t todo, c_thr s t = TRun todo -> NoDup todo;
  I_exps : forall t k fc, c_thr s t = TEvx k fc -> In t (c_exps s);
  I_K : forall k, Kat s k }.

(** The image of page [k] the checkpoint in progress will end up with. *)
Definition imgl (p : pair) (r : role) (cur inp : option V) : option V :=
  if p_pend p || owedb r then match p_val p with Some v => Some v | None => cur end
  else match p_clone p with Some c => Some c | None => inp end.

Definition img (s : cst) (k : ckey) : option V :=
  match c_tab s k with
  | Some p => imgl p (prole (c_thr s) k p) (c_cur s k) (c_inp s k)
  | None => c_inp s k
  end.

(** ** Reads of multi-page helpers *)
Lemma clear_bits_spec : forall ks (s s' : cst) t todo,
  clear_bits s t ks = Some (s', todo) ->
  c_keys s' = c_keys s /\ c_cur s' = c_cur s /\ c_inp s' = c_inp s /\ c_last s' = c_last s /\ c_ck s' = c_ck s /\
  c_thr s' = c_thr s /\ c_users s' = c_users s /\ c_exps s' = c_exps s /\
  (forall k, c_tab s' k = if mem k ks then option_map (fun p => with_pend (note_dirty p) false) (c_tab s k) else c_tab s k) /\
  (forall k, In k ks -> exists p, c_tab s k = Some p /\ p_lock p = Some t) /\
  NoDup todo /\
  (forall k, In k todo <-> In k ks /\ exists p, c_tab s k = Some p /\ p_pend p = true).
Proof.
  induction ks as [|k ks IH]; intros s s' t todo E; cbn in E.
  - injection E as <- <-. repeat split; auto; try constructor; cbn; try tauto. destruct H.
  - destruct (c_tab s k) as [p|] eqn:T; [|discriminate].
    destruct (p_lock p) as [t'|] eqn:LK; [|discriminate].
    destruct (N.eqb_spec t' t) as [E1|]; [|discriminate]. subst t'.
    destruct (clear_bits _ t ks) as [[s1 todo1]|] eqn:C; [|discriminate].
    injection E as <- <-. apply IH in C. cbn in C.
    destruct C as (C1 & C2 & C3 & C4 & C5 & C6 & C7 & C8 & C9 & C10 & C11 & C12).
    repeat (split; [assumption|]). split.
    { intros x. rewrite C9. unfold fupd. cbn [mem existsb].
      destruct (N.eqb_spec x k) as [->|NE].
      - cbn. rewrite T. destruct (mem k ks) eqn:M; fold (mem k ks); rewrite ?M; cbn.
        + f_equal. unfold with_pend, note_dirty; cbn. rewrite orb_assoc || idtac.
          destruct (p_dirty p), (p_nd p); reflexivity.
        + reflexivity.
      - cbn. reflexivity. }
    split.
    { intros x [<-|I1]; [exists p; auto|]. destruct (C10 x I1) as (q & Q1 & Q2). revert Q1. unfold fupd.
      destruct (N.eqb_spec x k) as [->|NE]; [|eauto]. intros [= <-]. exists p. auto. }
    assert (NK : ~ In k todo1).
    { rewrite C12. intros (I1 & q & Q1 & Q2). revert Q1. rewrite fupd_same. intros [= <-]. discriminate. }
    split.
    { destruct (p_pend p); [constructor|]; auto. }
    intros x. destruct (N.eqb_spec x k) as [->|NE].
    + destruct (p_pend p) eqn:PP; cbn.
      * split; [intros _; split; [auto|exists p; auto]|auto].
      * split; [intros I1; contradiction|]. intros (_ & q & Q1 & Q2). congruence.
    + assert (A : In x todo1 <-> In x ks /\ exists p, c_tab s x = Some p /\ p_pend p = true).
      { rewrite C12. rewrite fupd_other by exact NE. tauto. }
      assert (B : In x (k :: ks) <-> In x ks). { cbn. intuition congruence. }
      rewrite B, <- A. destruct (p_pend p); cbn; [|tauto]. intuition congruence.
Qed.

Fixpoint lastv (us : list (ckey * V)) (k : ckey) : option V :=
  match us with
  | [] => None
  | (k', v) :: us' => match lastv us' k with Some w => Some w | None => if k =? k' then Some v else None end
  end.

Lemma upds_spec : forall us m k, upds m us k = match lastv us k with Some v => Some v | None => m k end.
Proof.
  induction us as [|[k' v] us IH]; intros m k; cbn; [reflexivity|].
  rewrite IH. destruct (lastv us k); [reflexivity|]. unfold fupd. destruct (k =? k'); reflexivity.
Qed.

Lemma modify_spec : forall us (s s' : cst) t,
  modify s t us = Some s' ->
  c_keys s' = c_keys s /\ c_cur s' = c_cur s /\ c_inp s' = c_inp s /\ c_last s' = c_last s /\ c_ck s' = c_ck s /\
  c_thr s' = c_thr s /\ c_users s' = c_users s /\ c_exps s' = c_exps s /\
  (forall k, c_tab s' k = match lastv us k with Some v => option_map (fun p => with_val p v) (c_tab s k) | None => c_tab s k end) /\
  (forall k v, lastv us k = Some v -> exists p w, c_tab s k = Some p /\ p_lock p = Some t /\ p_val p = Some w).
Proof.
  induction us as [|[k v] us IH]; intros s s' t E; cbn in E.
  - injection E as <-. repeat split; auto. cbn. discriminate.
  - destruct (c_tab s k) as [p|] eqn:T; [|discriminate].
    destruct (p_lock p) as [t'|] eqn:LK; [|discriminate].
    destruct (N.eqb_spec t' t) as [E1|]; [|discriminate]. subst t'.
    destruct (p_val p) as [w|] eqn:PV; [|discriminate].
    apply IH in E. cbn in E.
    destruct E as (C1 & C2 & C3 & C4 & C5 & C6 & C7 & C8 & C9 & C10).
    repeat (split; [assumption|]). split.
    { intros x. rewrite C9. cbn [lastv]. unfold fupd. destruct (N.eqb_spec x k) as [->|NE].
      - rewrite T. destruct (lastv us k) as [u|]; reflexivity.
      - destruct (lastv us x); reflexivity. }
    intros x u. cbn [lastv]. destruct (lastv us x) as [u'|] eqn:LV.
    + intros [= <-]. destruct (C10 x u' LV) as (q & w' & Q1 & Q2 & Q3). revert Q1. unfold fupd.
      destruct (N.eqb_spec x k) as [->|NE]; [|eauto 6]. intros _. exists p, w. auto.
    + destruct (N.eqb_spec x k) as [->|NE]; [|discriminate]. intros _. exists p, w. auto.
Qed.


(** ** The local transitions of one page *)
Ltac kill :=
  try solve [ match goal with H : _ -> _ -> forall v, _ -> match ?x with _ => _ end |- match ?x with _ => _ end => apply H; auto; fail end
            | match goal with H : _ -> _ -> forall v, _ -> _ |- _ => apply H; auto; fail end
            | intuition (try congruence; try discriminate; eauto) ].
Ltac kbrute :=
  intros; unfold K in *; repeat match goal with p : pair |- _ => destruct p as [? ? ? ? ? ?] end; cbn in *;
  repeat match goal with H : _ /\ _ |- _ => destruct H end; subst; cbn in *;
  repeat split; intros; subst; cbn in *; kill.

Lemma K_lock : forall p t c i l u, K p RUn c i l u -> K (with_lock p (Some t)) RBusy c i l u.
Proof. kbrute. Qed.

Lemma K_resolve : forall p r c i l u, K p r c i l u -> r = RFree \/ r = RBusy ->
  K (with_pend (note_dirty p) false) (if p_pend p then ROwed else RFree) c i l u.
Proof.
  intros p r c i l u HK R. destruct p as [v d n pe lk cl]. unfold K in *; cbn in *.
  destruct HK as (K1 & K2 & K3 & K4 & K5 & K6 & K7 & K8 & K9).
  destruct pe, n, d; cbn; repeat split; intros; subst; cbn in *; kill; try (destruct R; subst; kill; fail).
Qed.

Lemma K_miss : forall t c i l u, (l = true -> u = true) -> K (mkPair None false false false (Some t) None) RFree c i l u.
Proof. kbrute. Qed.

Lemma K_put : forall t v c i l u, (l = true -> u = true) -> K (mkPair (Some v) true true false (Some t) None) RFree c i l u.
Proof. kbrute. Qed.

Lemma K_fetch : forall p r v i l u, K p r (Some v) i l u -> p_val p = None ->
  K (mkPair (Some v) (p_dirty p) (p_nd p) (p_pend p) (p_lock p) (p_clone p)) r (Some v) i l u.
Proof. 
  intros p r v i l u HK PV. destruct p as [w d n pe lk cl]. unfold K in *; cbn in *. subst w.
  destruct HK as (K1 & K2 & K3 & K4 & K5 & K6 & K7 & K8 & K9). destruct (K1 eq_refl) as (-> & -> & R & ->).
  repeat split; intros; kill.
Qed.

Lemma K_mod : forall p v c i l u, K p RFree c i l u -> K (with_val p v) RFree c i l u.
Proof. kbrute. Qed.

Lemma K_unpin : forall p c i l u, K p RFree c i l u -> p_val p <> None -> K (with_lock (note_dirty p) None) RUn c i l u.
Proof.
  intros p c i l u HK PV. destruct p as [v d n pe lk cl]. unfold K in *; cbn in *.
  destruct HK as (K1 & K2 & K3 & K4 & K5 & K6 & K7 & K8 & K9).
  destruct n, d; cbn; repeat split; intros; subst; cbn in *; kill.
Qed.

Lemma K_relock : forall p r o c i l u, K p r c i l u -> K (with_lock p o) r c i l u.
Proof. kbrute. Qed.

Lemma K_evstart : forall p c i l u, K p RBusy c i l u -> K (with_pend p false) (REv (p_pend p)) c i l u.
Proof.
  intros p c i l u HK. destruct p as [v d n pe lk cl]. unfold K in *; cbn in *.
  destruct HK as (K1 & K2 & K3 & K4 & K5 & K6 & K7 & K8 & K9).
  destruct pe; cbn; repeat split; intros; subst; cbn in *; kill.
Qed.

Lemma K_evwrite : forall p fc v c i l u, K p (REv fc) c i l u -> p_clone p = None -> p_val p = Some v ->
  K (cleaned p None) (REv fc) (Some v) (if fc then Some v else i) l u.
Proof.
  intros p fc w c i l u HK CL PV. destruct p as [v d n pe lk cl]. unfold K in *; cbn in *. subst.
  destruct HK as (K1 & K2 & K3 & K4 & K5 & K6 & K7 & K8 & K9).
  assert (pe = false) by eauto. subst pe.
  destruct fc; cbn; repeat split; intros; subst; cbn in *; kill.
Qed.

Lemma K_evfree : forall p r c i l u, K p r c i l u -> p_dirty p = false -> r = RBusy \/ (exists fc, r = REv fc) ->
  K (with_lock p None) RUn c i l u.
Proof.
  intros p r c i l u HK D R. destruct p as [v d n pe lk cl]. unfold K in *; cbn in *. subst.
  destruct HK as (K1 & K2 & K3 & K4 & K5 & K6 & K7 & K8 & K9).
  assert (N1 : r <> RFree /\ r <> ROwed) by (destruct R as [->|(fc & ->)]; split; discriminate). destruct N1 as [N1 N2].
  repeat split; intros; subst; cbn in *; kill.
  all: try (destruct (K1 eq_refl) as (_ & _ & [E|E] & _); congruence).
Qed.

Lemma K_begin : forall p r c i, K p r c i false false -> (forall fc, r <> REv fc) ->
  K (with_pend p true) r c c true true.
Proof.
  intros p r c i HK R. destruct p as [v d n pe lk cl]. unfold K in *; cbn in *.
  destruct HK as (K1 & K2 & K3 & K4 & K5 & K6 & K7 & K8 & K9).
  repeat split; intros; subst; cbn in *; kill. 
  all: try (exfalso; eapply R; eauto; fail).
  all: try (destruct (K6 H) as (? & ?); discriminate).
Qed.

(** The checkpoint write of a page whose bit was set. *)
Definition wfc (p : pair) (cl : bool) (c i : option V) (p' : pair) (c' i' : option V) : Prop :=
  (p_dirty p = false /\ p' = p /\ c' = c /\ i' = i) \/
  (p_dirty p = true /\ p_clone p = None /\ exists v, p_val p = Some v /\
     ((cl = true /\ p' = cleaned p (Some v) /\ c' = c /\ i' = i) \/
      (cl = false /\ p' = cleaned p None /\ c' = Some v /\ i' = Some v))).

Lemma wfc_sound : forall (s s' : cst) k p cl, write_for_checkpoint s k p cl = Some s' -> c_tab s k = Some p ->
  c_keys s' = c_keys s /\ c_last s' = c_last s /\ c_ck s' = c_ck s /\ c_thr s' = c_thr s /\ c_users s' = c_users s /\ c_exps s' = c_exps s /\
  (forall x, x <> k -> c_tab s' x = c_tab s x /\ c_cur s' x = c_cur s x /\ c_inp s' x = c_inp s x) /\
  exists p', c_tab s' k = Some p' /\ p_lock p' = p_lock p /\ p_pend p' = p_pend p /\ wfc p cl (c_cur s k) (c_inp s k) p' (c_cur s' k) (c_inp s' k).
Proof.
  intros s s' k p cl E T. unfold write_for_checkpoint, write_locked_pair in E.
  destruct (p_dirty p) eqn:D.
  - destruct (p_clone p) eqn:CL; [destruct cl; discriminate|].
    destruct (p_val p) as [v|] eqn:PV; [|destruct cl; discriminate].
    destruct cl; injection E as <-; cbn; repeat (split; [reflexivity|]).
    + split; [intros x NE; rewrite !fupd_other by exact NE; auto|]. exists (cleaned p (Some v)).
      rewrite fupd_same. repeat (split; [reflexivity|]). right. split; [exact D|]. split; [exact CL|]. exists v. split; [exact PV|]. left. auto.
    + split; [intros x NE; rewrite !fupd_other by exact NE; auto|]. exists (cleaned p None).
      rewrite !fupd_same. repeat (split; [reflexivity|]). right. split; [exact D|]. split; [exact CL|]. exists v. split; [exact PV|]. right. auto.
  - injection E as <-. repeat (split; [reflexivity|]). split; [auto|]. exists p. repeat (split; [auto|]). left. auto.
Qed.

Lemma K_write : forall p p' cl c i c' i' l u, K p ROwed c i l u -> p_pend p = false -> wfc p cl c i p' c' i' -> K p' RFree c' i' l u.
Proof.
  intros p p' cl c i c' i' l u HK PP W. unfold wfc in W. destruct p as [v d n pe lk cl0]. cbn in *. subst pe.
  unfold K in HK; cbn in HK. destruct HK as (K1 & K2 & K3 & K4 & K5 & K6 & K7 & K8 & K9).
  assert (l = true) by auto. assert (i = c) by auto. assert (cl0 = None). { destruct cl0; auto. destruct K6; [discriminate|]. destruct H2; discriminate. }
  subst. destruct W as [(-> & -> & -> & ->)|(-> & _ & w & -> & [(-> & -> & -> & ->)|(-> & -> & -> & ->)])];
    unfold K; cbn; repeat split; intros; subst; cbn in *; kill.
Qed.

Lemma K_ckpair_pend : forall p p' cl c i c' i' u, K p RUn c i true u -> p_pend p = true -> wfc p cl c i p' c' i' ->
  K (with_pend p' false) RUn c' i' false u.
Proof.
  intros p p' cl c i c' i' u HK PP W. unfold wfc in W. destruct p as [v d n pe lk cl0]. cbn in *. subst pe.
  unfold K in HK; cbn in HK. destruct HK as (K1 & K2 & K3 & K4 & K5 & K6 & K7 & K8 & K9).
  assert (i = c) by auto. assert (cl0 = None). { destruct cl0; auto. destruct K6; [discriminate|]. destruct H1; discriminate. }
  subst. destruct W as [(-> & -> & -> & ->)|(-> & _ & w & -> & [(-> & -> & -> & ->)|(-> & -> & -> & ->)])];
    unfold K; cbn; repeat split; intros; subst; cbn in *; kill.
Qed.

Lemma K_ckpair_not : forall p c i l u, K p RUn c i l u -> p_pend p = false -> K (with_pend p false) RUn c i false u.
Proof.
  intros p c i l u HK PP. destruct p as [v d n pe lk cl0]. cbn in *. subst pe.
  unfold K in *; cbn in *. destruct HK as (K1 & K2 & K3 & K4 & K5 & K6 & K7 & K8 & K9).
  repeat split; intros; subst; cbn in *; kill.
Qed.

Lemma K_clone : forall p r c i l u w, K p r c i l u -> p_clone p = Some w ->
  K (mkPair (p_val p) (p_dirty p) (p_nd p) (p_pend p) (p_lock p) None) r (Some w) (Some w) l u.
Proof.
  intros p r c i l u w HK PP. destruct p as [v d n pe lk cl0]. cbn in *. subst cl0.
  unfold K in *; cbn in *. destruct HK as (K1 & K2 & K3 & K4 & K5 & K6 & K7 & K8 & K9).
  repeat split; intros; subst; cbn in *; kill.
  f_equal. apply K2; auto.
Qed.

Lemma K_end : forall p r c i u, K p r c i false u -> p_clone p = None -> K p r c i false false.
Proof.
  intros p r c i u HK PP. destruct p as [v d n pe lk cl0]. cbn in *. subst cl0.
  unfold K in *; cbn in *. destruct HK as (K1 & K2 & K3 & K4 & K5 & K6 & K7 & K8 & K9).
  repeat split; intros; subst; cbn in *; kill.
Qed.

End Proofs.
Arguments prole {V}. Arguments K {V}. Arguments Kat {V}. Arguments Inv {V}. Arguments imgl {V}. Arguments img {V}. Arguments lastv {V}.
Arguments I_keys {V}. Arguments I_thr {V}. Arguments I_nodup {V}. Arguments I_exps {V}. Arguments I_K {V}. Arguments wfc {V}.
