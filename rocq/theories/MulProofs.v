(** Lemmas for MulModel.v. *)
From Coq Require Import Permutation.
From Verif Require Import Base Bytes LtSpec KOrd MulModel MulSpec.
Open Scope nat_scope.

Lemma same_bytes_eq a : forall b, same_bytes a b = true -> a = b.
Proof.
  induction a as [|x a IH]; intros [|y b] H; cbn in H; try congruence.
  apply andb_true_iff in H as [H1 H2]. apply N.eqb_eq in H1. f_equal; auto.
Qed.

(** ** Lists of writes *)

Definition wop : Type := nat * bytes * option bytes.
Section W.
Context (e : menv) (ok : forall d, cmp_ok (e_cmp e d)).
Definition wapply (s : mst) (w : wop) : mst :=
  match w with (d, k, Some v) => put_row e s d k v | (d, k, None) => del_row e s d k end.
Definition wall (s : mst) (l : list wop) : mst := fold_left wapply l s.

Lemma wapply_rows s d k o d' y :
  m_rows (wapply s (d, k, o)) d' y = if (d' =? d) && keqb (e_cmp e d) y k then o else m_rows s d' y.
Proof. destruct o; reflexivity. Qed.
Lemma wapply_log s w : m_log (wapply s w) = m_log s.
Proof. destruct w as [[d k] [v|]]; reflexivity. Qed.
Lemma wapply_locks s w : m_locks (wapply s w) = m_locks s.
Proof. destruct w as [[d k] [v|]]; reflexivity. Qed.
Lemma wall_log l : forall s, m_log (wall s l) = m_log s.
Proof. induction l as [|w l IH]; intros s; [reflexivity|]. cbn [wall fold_left]. fold (wall (wapply s w) l). rewrite IH. apply wapply_log. Qed.
Lemma wall_locks l : forall s, m_locks (wall s l) = m_locks s.
Proof. induction l as [|w l IH]; intros s; [reflexivity|]. cbn [wall fold_left]. fold (wall (wapply s w) l). rewrite IH. apply wapply_locks. Qed.
Lemma wall_app l l' s : wall s (l ++ l') = wall (wall s l) l'.
Proof. apply fold_left_app. Qed.

Lemma wall_out l : forall s d y,
  (forall k o, In (d, k, o) l -> ~ keq (e_cmp e d) y k) -> m_rows (wall s l) d y = m_rows s d y.
Proof.
  induction l as [|[[d0 k0] o0] l IH]; intros s d y H; [reflexivity|].
  cbn [wall fold_left]. fold (wall (wapply s (d0, k0, o0)) l).
  rewrite IH by (intros k o Hi; apply (H k o); right; exact Hi).
  rewrite wapply_rows. destruct (d =? d0) eqn:Ed; [|reflexivity]. apply Nat.eqb_eq in Ed; subst d0.
  cbn [andb]. destruct (keqb (e_cmp e d) y k0) eqn:Ek; [|reflexivity].
  apply keqb_true in Ek. exfalso. exact (H k0 o0 (or_introl eq_refl) Ek).
Qed.
Lemma wall_in l : forall s d y k o,
  In (d, k, o) l -> keq (e_cmp e d) y k ->
  (forall k' o', In (d, k', o') l -> keq (e_cmp e d) y k' -> o' = o) ->
  m_rows (wall s l) d y = o.
Proof.
  induction l as [|[[d0 k0] o0] l IH]; intros s d y k o Hi Hk Hu; [destruct Hi|].
  cbn [wall fold_left]. fold (wall (wapply s (d0, k0, o0)) l).
  assert (Dec : (exists k' o', In (d, k', o') l /\ keq (e_cmp e d) y k') \/ (forall k' o', In (d, k', o') l -> ~ keq (e_cmp e d) y k')).
  { clear. induction l as [|[[d1 k1] o1] l IH]; [right; intros ? ? []|].
    destruct IH as [(k' & o' & H1 & H2)|IH]; [left; exists k', o'; split; [right|]; assumption|].
    destruct (Nat.eq_dec d d1) as [<-|Hne].
    - destruct (keqb (e_cmp e d) y k1) eqn:Ek.
      + left. exists k1, o1. split; [left; reflexivity|]. apply keqb_true, Ek.
      + right. intros k' o' [H|H]; [|exact (IH k' o' H)]. injection H as <- <-. apply keqb_false, Ek.
    - right. intros k' o' [H|H]; [congruence|exact (IH k' o' H)]. }
  destruct Dec as [(k' & o' & H1 & H2)|Dec].
  - rewrite (IH _ d y k' o' H1 H2).
    + exact (Hu k' o' (or_intror H1) H2).
    + intros k2 o2 H3 H4. rewrite (Hu k2 o2 (or_intror H3) H4). symmetry. exact (Hu k' o' (or_intror H1) H2).
  - rewrite wall_out by exact Dec. destruct Hi as [Hi|Hi]; [|exfalso; exact (Dec k o Hi Hk)].
    injection Hi as -> -> ->. rewrite wapply_rows, Nat.eqb_refl. cbn [andb].
    apply keqb_true in Hk. rewrite Hk. reflexivity.
Qed.

Definition wdel (l : list (nat * list bytes)) : list wop := flat_map (fun p => map (fun k => (fst p, k, None)) (snd p)) l.
Definition wput (l : list (nat * list (bytes * bytes))) : list wop := flat_map (fun p => map (fun kv => (fst p, fst kv, Some (snd kv))) (snd p)) l.
Lemma in_wdel l d k o : In (d, k, o) (wdel l) <-> o = None /\ exists ks, In (d, ks) l /\ In k ks.
Proof.
  unfold wdel. rewrite in_flat_map. split.
  - intros ([d' ks] & H1 & H2). cbn [fst snd] in H2. apply in_map_iff in H2 as (k' & H2 & H3). injection H2 as <- <- <-. eauto.
  - intros (-> & ks & H1 & H2). exists (d, ks). split; [exact H1|]. cbn [fst snd]. apply (in_map (fun k => (d, k, None : option bytes))), H2.
Qed.
Lemma in_wput l d k o : In (d, k, o) (wput l) <-> exists v kvs, o = Some v /\ In (d, kvs) l /\ In (k, v) kvs.
Proof.
  unfold wput. rewrite in_flat_map. split.
  - intros ([d' ks] & H1 & H2). cbn [fst snd] in H2. apply in_map_iff in H2 as ([k' v] & H2 & H3). cbn [fst snd] in H2. injection H2 as <- <- <-. eauto.
  - intros (v & kvs & -> & H1 & H2). exists (d, kvs). split; [exact H1|]. cbn [fst snd].
    apply (in_map (fun kv => (d, fst kv, Some (snd kv))) _ (k, v)), H2.
Qed.

Lemma fold_del d ks : forall s, fold_left (fun s k => del_row e s d k) ks s = wall s (map (fun k => (d, k, None)) ks).
Proof. induction ks as [|k ks IH]; intros s; [reflexivity|]. cbn [fold_left map]. rewrite IH. reflexivity. Qed.
Lemma fold_put d kvs : forall s, fold_left (fun s kv => put_row e s d (fst kv) (snd kv)) kvs s = wall s (map (fun kv => (d, fst kv, Some (snd kv))) kvs).
Proof. induction kvs as [|k ks IH]; intros s; [reflexivity|]. cbn [fold_left map]. rewrite IH. reflexivity. Qed.
Lemma do_del_wall l : forall s, do_del e s l = wall s (wdel l).
Proof.
  induction l as [|[d ks] l IH]; intros s; [reflexivity|]. cbn [do_del]. rewrite IH, fold_del.
  unfold wdel. cbn [flat_map fst snd]. rewrite wall_app. reflexivity.
Qed.
Lemma put_rows_none d kvs : forall s, put_rows e s d kvs FNone = (wall s (map (fun kv => (d, fst kv, Some (snd kv))) kvs), None).
Proof.
  induction kvs as [|[k v] kvs IH]; intros s; [reflexivity|]. cbn [put_rows db_put thn map]. rewrite IH. reflexivity.
Qed.
Lemma do_put_none l : forall s, Forall (fun p => snd p = FNone) l ->
  do_put e s l = (wall s (wput (map fst l)), None).
Proof.
  induction l as [|[[d kvs] f] l IH]; intros s H; [reflexivity|]. inversion_clear H as [|? ? H1 H2]. cbn in H1; subst f.
  cbn [do_put]. rewrite put_rows_none. cbn [thn]. rewrite IH by exact H2.
  unfold wput. cbn [map flat_map fst snd]. rewrite wall_app. reflexivity.
Qed.
End W.

(** ** The log *)
Section L.
Context (e : menv).
Definition singles (l : list (nat * list bytes)) : list lrec := flat_map (fun p => map (fun k => LDel (fst p) k) (snd p)) l.
Lemma log_single1 d ks : forall s, fold_left (fun s k => log_rec s (LDel d k)) ks s = mkMst (m_rows s) (m_locks s) (m_log s ++ map (fun k => LDel d k) ks).
Proof.
  induction ks as [|k ks IH]; intros s; cbn [fold_left map].
  - rewrite app_nil_r. destruct s; reflexivity.
  - rewrite IH. cbn [log_rec m_rows m_locks m_log]. rewrite <- app_assoc. reflexivity.
Qed.
Lemma log_singles l : forall s, fold_left (fun s p => fold_left (fun s k => log_rec s (LDel (fst p) k)) (snd p) s) l s
  = mkMst (m_rows s) (m_locks s) (m_log s ++ singles l).
Proof.
  induction l as [|[d ks] l IH]; intros s; cbn [fold_left].
  - cbn [singles flat_map]. rewrite app_nil_r. destruct s; reflexivity.
  - rewrite IH, log_single1. cbn [m_rows m_locks m_log fst snd]. unfold singles. cbn [flat_map fst snd]. rewrite <- app_assoc. reflexivity.
Qed.
Lemma log_del_shape s src k v l : exists r,
  log_del e s src k v l = mkMst (m_rows s) (m_locks s) (m_log s ++ r) /\ (r = singles l \/ (l <> [] /\ r = [LDelMulti src (map fst l) k v])).
Proof.
  unfold log_del. destruct l as [|p l].
  - exists []. split; [|left; reflexivity]. rewrite app_nil_r. destruct s; reflexivity.
  - destruct (_ <? _)%N.
    + exists (singles (p :: l)). split; [apply log_singles|left; reflexivity].
    + eexists. split; [reflexivity|right; split; [discriminate|reflexivity]].
Qed.
Lemma log_put_shape s src k v ds : exists r,
  log_put s src k v ds = mkMst (m_rows s) (m_locks s) (m_log s ++ r) /\ r = match ds with [] => [] | _ => [LPutMulti src ds k v] end.
Proof.
  unfold log_put. destruct ds as [|d ds]; [exists []|eexists; split; reflexivity].
  rewrite app_nil_r. destruct s; split; reflexivity.
Qed.
Lemma replay_app s l l' : replay e s (l ++ l') = match replay e s l with Some s' => replay e s' l' | None => None end.
Proof. revert s. induction l as [|r l IH]; intros s; [reflexivity|]. cbn [app replay]. destruct (replay1 e s r); [apply IH|reflexivity]. Qed.
Lemma replay_singles l : forall s, replay e s (singles l) = Some (wall e s (wdel l)).
Proof.
  induction l as [|[d ks] l IH]; intros s; [reflexivity|].
  unfold singles, wdel. cbn [flat_map fst snd]. fold (singles l). fold (wdel l). rewrite replay_app, wall_app.
  enough (replay e s (map (fun k => LDel d k) ks) = Some (wall e s (map (fun k => (d, k, None)) ks))) as -> by apply IH.
  clear. revert s. induction ks as [|k ks IH]; intros s; [reflexivity|]. cbn [map replay replay1]. rewrite IH. reflexivity.
Qed.
Lemma replay_dels_wall src k v l : forall s,
  Forall (fun p => keys_of e src (fst p) k v = Some (snd p)) l -> replay_dels e s src k v (map fst l) = Some (wall e s (wdel l)).
Proof.
  induction l as [|[d ks] l IH]; intros s H; [reflexivity|]. inversion_clear H as [|? ? H1 H2]. cbn [fst snd] in H1.
  cbn [map fst replay_dels]. unfold keys_of in H1. unfold same_src. rewrite H1. rewrite fold_del, IH by exact H2.
  unfold wdel. cbn [flat_map fst snd]. rewrite wall_app. reflexivity.
Qed.
Lemma replay_puts_wall src k v l : forall s,
  Forall (fun p => rows_of e src (fst p) k v = Some (snd p)) l -> replay_puts e s src k v (map fst l) = Some (wall e s (wput l)).
Proof.
  induction l as [|[d ks] l IH]; intros s H; [reflexivity|]. inversion_clear H as [|? ? H1 H2]. cbn [fst snd] in H1.
  cbn [map fst replay_puts]. unfold rows_of in H1. unfold same_src. rewrite H1. rewrite fold_put, IH by exact H2.
  unfold wput. cbn [flat_map fst snd]. rewrite wall_app. reflexivity.
Qed.
End L.

(** ** Locks *)
Section K.
Context (e : menv).
(** Same rows, same log, no lock given up. *)
Definition calm (s s' : mst) : Prop := m_rows s' = m_rows s /\ m_log s' = m_log s /\ incl (m_locks s) (m_locks s').
Lemma calm_refl s : calm s s.
Proof. repeat split. apply incl_refl. Qed.
Lemma calm_trans a b c : calm a b -> calm b c -> calm a c.
Proof. intros (A1 & A2 & A3) (B1 & B2 & B3). repeat split; [congruence|congruence|eapply incl_tran; eauto]. Qed.
Definition held (s : mst) d (fl : flags) k : Prop := e_lt e d = true -> f_prelocked fl = false -> In (d, k) (m_locks s).
Lemma held_calm s s' d fl k : calm s s' -> held s d fl k -> held s' d fl k.
Proof. intros (_ & _ & C) H A B. apply C, H; assumption. Qed.

Lemma point_lock_spec s d fl k s' r : point_lock e s d fl k = (s', r) ->
  calm s s' /\ (r = None -> held s' d fl k) /\ (forall x, r = Some x -> x = ELock).
Proof.
  unfold point_lock, held. destruct (e_lt e d); cbn [andb].
  - destruct (f_prelocked fl); cbn [negb].
    + intros [= <- <-]. split; [apply calm_refl|split; [congruence|congruence]].
    + destruct (e_grant e d k); intros [= <- <-]; (split; [|split]); try congruence.
      * repeat split. cbn [m_locks]. apply incl_tl, incl_refl.
      * intros _ _ _. left. reflexivity.
      * apply calm_refl.
  - intros [= <- <-]. split; [apply calm_refl|split; congruence].
Qed.
Lemma getf_set_spec s d fl k s' r : getf_set e s d fl k = (s', r) ->
  calm s s' /\ (r = None -> held s' d fl k /\ m_rows s d k <> None) /\ (r = Some ENotFound -> held s' d fl k /\ m_rows s d k = None) /\ r <> Some EBug.
Proof.
  unfold getf_set. destruct (point_lock e s d fl k) as [s1 r1] eqn:E. apply point_lock_spec in E as (C & H & X).
  destruct r1 as [x|]; cbn [thn].
  - intros [= <- <-]. specialize (X x eq_refl). subst x. repeat split; try congruence; apply C.
  - intros [= <- <-]. destruct C as (C1 & C2 & C3). rewrite C1. destruct (m_rows s d k); repeat split; try congruence; auto; intros; congruence.
Qed.
Lemma check_overwrite_spec s d fl k s' r : check_overwrite e s d fl k = (s', r) ->
  calm s s' /\ r <> Some EBug /\ (r = None -> f_rest fl = FNoOverwrite -> held s' d fl k /\ m_rows s d k = None) /\
  (r = None -> f_rest fl = FNone \/ f_rest fl = FNoOverwrite \/ f_rest fl = FNoOverwriteNoError).
Proof.
  unfold check_overwrite. destruct (f_rest fl) eqn:F.
  1,3-5: intros [= <- <-]; split; [apply calm_refl|repeat split; try congruence; auto].
  destruct (getf_set e s d fl k) as [s1 r1] eqn:E. apply getf_set_spec in E as (C & H1 & H2 & H3).
  destruct r1 as [[]|]; intros [= <- <-]; (split; [exact C|]); repeat split; try congruence; auto;
    intros; apply (H2 eq_refl).
Qed.
End K.
