(** The meaning of a log as the state an undisturbed system would be in: an
    interpreter without checkpoints, disk and LSNs, used by the proofs. *)
From Coq Require Import Sorted.
From Verif Require Import Base UleModel MgrModel MvccModel RecModel RecSpec.
Open Scope N_scope.

Record ist := mkIst {
  i_open : names;
  i_txns : list ptxn;
  i_cont : fname -> mlist;
  i_locks : fname -> rkey -> option txnid;
  i_used : list txnid;       (* roots begun so far *)
  i_clast : txnid -> txnid;  (* largest child id used, by root *)
  i_ck : txnid               (* last_xid of the latest begin_checkpoint since recovery *)
}.
Definition ist_init : ist := mkIst [] [] (fun _ => []) (fun _ _ => None) [] (fun _ => 0) 0.

Definition fmsgs := list (fnum * (rkey * rmsg)).
Definition commit_msgs (x : xids) (es : list ent) : fmsgs :=
  flat_map (fun e => if en_del e then [(en_fn e, (en_key e, mkRmsg KCommit x))] else []) es.
Definition abort_msgs (x : xids) (es : list ent) : fmsgs :=
  map (fun e => (en_fn e, (en_key e, mkRmsg KAbort x))) es.

Definition mine (o : names) (nm : fname) (ms : fmsgs) : mlist :=
  map snd (filter (fun p => match nlook (fst p) o with Some n => n =? nm | None => false end) ms).
Definition isend (o : names) (ms : fmsgs) (c : fname -> mlist) : fname -> mlist :=
  fun nm => c nm ++ mine o nm ms.

Definition iwith (I : ist) (ts : list ptxn) (c : fname -> mlist) (lk : fname -> rkey -> option txnid) : ist :=
  mkIst (i_open I) ts c lk (i_used I) (i_clast I) (i_ck I).

Definition istep (I : ist) (x : lrec) : option ist :=
  match x with
  | LBeginCk last =>
      guard (i_ck I <=? last); guard (forallb (fun r => r <=? last) (i_used I));
      Some (mkIst (i_open I) (i_txns I) (i_cont I) (i_locks I) (i_used I) (i_clast I) last)
  | LEndCk _ _ _ | LFassocRb | LStill _ _ _ _ _ | LComment false => Some I
  | LFassoc fn nm =>
      match nlook fn (i_open I) with Some n => guard (n =? nm); Some I | None => Some I end
  | LStillPrep r _ _ => do t <- find_pt r (i_txns I); guard (pt_prep t); Some I
  | LBegin r c None =>
      guard (c =? TXNID_NONE); guard (negb (memb r (i_used I)));
      guard (0 <? r); guard (r <? TXNID_MAX);
      Some (mkIst (i_open I) (ins_pt (mkPt r [mkRl r [] []] false) (i_txns I)) (i_cont I) (i_locks I)
              (r :: i_used I) (i_clast I) (i_ck I))
  | LBegin r c (Some p) =>
      do t <- find_inner r p (i_txns I);
      guard (negb (pt_prep t)); guard (i_clast I r <? c); guard (negb (c =? r));
      guard (length (pt_levels t) <? MAX_NESTED_TRANSACTIONS)%nat; guard (c + 2 <? 2 ^ 64);
      Some (mkIst (i_open I) (set_pt (mkPt r (mkRl c [] [] :: pt_levels t) false) (i_txns I)) (i_cont I)
              (i_locks I) (i_used I) (upd2 (i_clast I) r c) (i_ck I))
  | LCommit r c =>
      do t <- find_inner r c (i_txns I);
      match pt_levels t with
      | [] => None
      | [l] => Some (iwith I (del_pt r (i_txns I))
                       (isend (i_open I) (commit_msgs (pt_chain t) (rl_ents l)) (i_cont I))
                       (release r (i_locks I)))
      | _ => Some (iwith I (set_pt (merge_child t) (i_txns I)) (i_cont I) (i_locks I))
      end
  | LAbort r c =>
      do t <- find_inner r c (i_txns I);
      match pt_levels t with
      | [] => None
      | l :: ls =>
          Some (iwith I (if is_nil ls then del_pt r (i_txns I) else set_pt (pop_level t) (i_txns I))
                  (isend (i_open I) (abort_msgs (pt_chain t) (rl_ents l)) (i_cont I))
                  (if is_nil ls then release r (i_locks I) else i_locks I))
      end
  | LPrepare r =>
      do t <- find_inner r TXNID_NONE (i_txns I); guard (negb (pt_prep t));
      Some (iwith I (set_pt (mkPt r (pt_levels t) true) (i_txns I)) (i_cont I) (i_locks I))
  | LFopen fn nm =>
      guard (negb (is_some (nlook fn (i_open I))));
      guard (negb (existsb (fun p => snd p =? nm) (i_open I)));
      Some (mkIst ((fn, nm) :: i_open I) (i_txns I) (i_cont I) (i_locks I) (i_used I) (i_clast I) (i_ck I))
  | LFclose fn nm =>
      do n <- nlook fn (i_open I); guard (n =? nm); guard (negb (used_by fn (i_txns I)));
      Some (mkIst (filter (fun p => negb (fst p =? fn)) (i_open I)) (i_txns I) (i_cont I) (i_locks I)
              (i_used I) (i_clast I) (i_ck I))
  | LEnq fn r c k w =>
      do t <- find_inner r c (i_txns I);
      do nm <- nlook fn (i_open I);
      guard (negb (pt_prep t)); guard (lock_free r nm k (i_locks I));
      Some (iwith I (set_pt (push_rent (mkEnt fn k (went w)) t) (i_txns I))
              (isend (i_open I) [(fn, (k, mkRmsg (wmsg w) (pt_chain t)))] (i_cont I))
              (take r nm k (i_locks I)))
  | LComment true =>
      Some (mkIst (filter (fun p => used_by (fst p) (i_txns I)) (i_open I)) (i_txns I) (i_cont I)
              (i_locks I) (i_used I) (i_clast I) 0)
  end.

Fixpoint irun (I : ist) (log : list lrec) : option ist :=
  match log with [] => Some I | x :: log' => do I' <- istep I x; irun I' log' end.
Definition ideal (log : list lrec) : option ist := irun ist_init log.

(** The state and the content of a dictionary after the first [p] records of a log
    whose first [pb] records lead to [J] and continue with [suf]. *)
Definition st (J : ist) (suf : list lrec) (pb p : nat) : option ist := irun J (firstn (p - pb) suf).
Definition cat (J : ist) (suf : list lrec) (pb p : nat) (nm : fname) : mlist :=
  match st J suf pb p with Some K => i_cont K nm | None => [] end.

Lemma irun_app l1 : forall I l2, irun I (l1 ++ l2) = do J <- irun I l1; irun J l2.
Proof. induction l1 as [|x l1 IH]; intros I l2; cbn [irun app]; [reflexivity|]. destruct (istep I x); auto. Qed.
Lemma irun_snoc l x I : irun I (l ++ [x]) = do J <- irun I l; istep J x.
Proof. rewrite irun_app. destruct (irun I l) as [J|]; [|reflexivity]. cbn. destruct (istep J x); reflexivity. Qed.
Lemma st_prefix J suf pb p K : irun J suf = Some K -> exists K', st J suf pb p = Some K'.
Proof.
  unfold st. set (q := (p - pb)%nat). intros H. rewrite <- (firstn_skipn q suf), irun_app in H.
  destruct (irun J (firstn q suf)); [eauto|discriminate].
Qed.
Lemma st_app J l1 l2 pb p : (p <= pb + length l1)%nat -> st J (l1 ++ l2) pb p = st J l1 pb p.
Proof. intros H. unfold st. rewrite firstn_app. replace (p - pb - length l1)%nat with 0%nat by lia. cbn [firstn]. now rewrite app_nil_r. Qed.
Lemma cat_app J l1 l2 pb p nm : (p <= pb + length l1)%nat -> cat J (l1 ++ l2) pb p nm = cat J l1 pb p nm.
Proof. intros H. unfold cat. now rewrite st_app. Qed.
Lemma st_all J suf pb p : (pb + length suf <= p)%nat -> st J suf pb p = irun J suf.
Proof. intros H. unfold st. rewrite firstn_all2 by lia. reflexivity. Qed.
Lemma cat_all J suf pb p K nm : irun J suf = Some K -> (pb + length suf <= p)%nat -> cat J suf pb p nm = i_cont K nm.
Proof. intros H Hp. unfold cat. now rewrite st_all, H. Qed.
Lemma st_S J suf pb p x : (pb <= p)%nat -> nth_error suf (p - pb) = Some x ->
  st J suf pb (S p) = do K <- st J suf pb p; istep K x.
Proof.
  intros Hp Hx. unfold st. replace (S p - pb)%nat with (S (p - pb)) by lia. apply nth_error_split in Hx.
  destruct Hx as (l1 & l2 & -> & <-). rewrite !firstn_app. replace (S (length l1) - length l1)%nat with 1%nat by lia.
  rewrite Nat.sub_diag, firstn_all2, firstn_all by lia. cbn [firstn]. rewrite app_nil_r. apply irun_snoc.
Qed.
Lemma cat_base J suf pb p nm : (p <= pb)%nat -> cat J suf pb p nm = i_cont J nm.
Proof. intros H. unfold cat, st. replace (p - pb)%nat with 0%nat by lia. reflexivity. Qed.

(** * Well-formed states *)

Definition level_ok (I : ist) (l : rlevel) : Prop :=
  Forall (fun e => memb (en_fn e) (rl_fts l) = true) (rl_ents l)
  /\ Forall (fun fn => nlook fn (i_open I) <> None) (rl_fts l).
Definition child_ok (I : ist) (r : txnid) (c : rlevel) : Prop :=
  rl_xid c <> 0 /\ rl_xid c <> r /\ rl_xid c <= i_clast I r.
Definition txn_ok (I : ist) (t : ptxn) : Prop :=
  (exists ls l, pt_levels t = ls ++ [l] /\ rl_xid l = pt_root t /\ Forall (child_ok I (pt_root t)) ls
     /\ NoDup (map rl_xid ls))
  /\ (pt_prep t = true -> length (pt_levels t) = 1%nat)
  /\ Forall (level_ok I) (pt_levels t).

Record IWf (I : ist) : Prop := {
  iw_sorted : StronglySorted N.lt (map pt_root (i_txns I));
  iw_txns : Forall (txn_ok I) (i_txns I);
  iw_used : Forall (fun t => In (pt_root t) (i_used I)) (i_txns I);
  iw_pos : Forall (fun r => 0 < r /\ r < TXNID_MAX) (i_used I);
  iw_fns : NoDup (map fst (i_open I));
  iw_names : NoDup (map snd (i_open I))
}.

Lemma IWf_init : IWf ist_init.
Proof. split; cbn; constructor. Qed.

(** ** Lists of transactions *)

Lemma find_pt_some r ts t : find_pt r ts = Some t -> In t ts /\ pt_root t = r.
Proof. unfold find_pt. intros H. apply find_some in H. destruct H as [H1 H2]. apply N.eqb_eq in H2. auto. Qed.
Lemma find_inner_some r c ts t : find_inner r c ts = Some t -> find_pt r ts = Some t /\ In t ts /\ pt_root t = r /\ pt_child t = c.
Proof.
  unfold find_inner. destruct (find_pt r ts) as [t'|] eqn:F; [|discriminate].
  destruct (N.eqb_spec (pt_child t') c) as [E|E]; cbn; [|discriminate]. intros [= ->]. apply find_pt_some in F as H. tauto.
Qed.
Lemma find_inner_intro r ts t : find_pt r ts = Some t -> find_inner r (pt_child t) ts = Some t.
Proof. intros H. unfold find_inner. rewrite H, N.eqb_refl. reflexivity. Qed.

Lemma set_pt_roots t ts : map pt_root (set_pt t ts) = map pt_root ts.
Proof.
  unfold set_pt. rewrite map_map. apply map_ext. intros u. destruct (N.eqb_spec (pt_root u) (pt_root t)); congruence.
Qed.
Lemma set_pt_Forall (P : ptxn -> Prop) t ts : Forall P ts -> P t -> Forall P (set_pt t ts).
Proof.
  intros H Ht. unfold set_pt. apply Forall_map. eapply Forall_impl; [|exact H]. intros u Hu. cbv beta.
  destruct (_ =? _); auto.
Qed.
Lemma del_pt_Forall (P : ptxn -> Prop) r ts : Forall P ts -> Forall P (del_pt r ts).
Proof. intros H. unfold del_pt. rewrite Forall_forall in *. intros x Hx. apply filter_In in Hx. apply H. tauto. Qed.
Lemma del_pt_sorted r ts : StronglySorted N.lt (map pt_root ts) -> StronglySorted N.lt (map pt_root (del_pt r ts)).
Proof.
  induction ts as [|t ts IH]; cbn; intros H; [constructor|]. inversion H as [|? ? H1 H2]; subst.
  destruct (negb _); cbn; [|auto]. constructor; [auto|]. rewrite Forall_map in *. apply del_pt_Forall. auto.
Qed.
Lemma ins_pt_In t ts u : In u (ins_pt t ts) <-> u = t \/ In u ts.
Proof.
  induction ts as [|v ts IH]; cbn; [intuition congruence|]. destruct (_ <? _); cbn; [intuition congruence|]. rewrite IH. intuition congruence.
Qed.
Lemma ins_pt_Forall (P : ptxn -> Prop) t ts : P t -> Forall P ts -> Forall P (ins_pt t ts).
Proof. rewrite !Forall_forall. intros H1 H2 x Hx. apply ins_pt_In in Hx. destruct Hx as [->|Hx]; auto. Qed.
Lemma ins_pt_sorted t ts : StronglySorted N.lt (map pt_root ts) -> ~ In (pt_root t) (map pt_root ts) ->
  StronglySorted N.lt (map pt_root (ins_pt t ts)).
Proof.
  induction ts as [|u ts IH]; cbn [ins_pt map]; intros H N; [repeat constructor|]. inversion H as [|? ? H1 H2]; subst.
  destruct (N.ltb_spec (pt_root t) (pt_root u)) as [L|L]; cbn [map].
  - constructor; [auto|]. constructor; [auto|]. eapply Forall_impl; [|exact H2]. cbv beta. intros a Ha. lia.
  - assert (pt_root t <> pt_root u) by (intros E; apply N; left; auto).
    constructor; [apply IH; auto; intros X; apply N; right; auto|]. apply Forall_map, ins_pt_Forall; [lia|].
    rewrite Forall_map in H2. exact H2.
Qed.

Lemma sorted_find ts t : StronglySorted N.lt (map pt_root ts) -> In t ts -> find_pt (pt_root t) ts = Some t.
Proof.
  induction ts as [|u ts IH]; cbn; intros H []; inversion H as [|? ? H1 H2]; subst.
  - now rewrite N.eqb_refl.
  - destruct (N.eqb_spec (pt_root u) (pt_root t)) as [E|]; [|apply IH; auto]. rewrite Forall_map, Forall_forall in H2.
    apply H2 in H0. lia.
Qed.
Lemma find_pt_set t ts r : find_pt r (set_pt t ts) =
  match find_pt r ts with Some u => Some (if pt_root u =? pt_root t then t else u) | None => None end.
Proof.
  induction ts as [|u ts IH]; cbn; [reflexivity|].
  destruct (N.eqb_spec (pt_root u) (pt_root t)) as [E|E].
  - destruct (N.eqb_spec (pt_root t) r) as [E'|E'], (N.eqb_spec (pt_root u) r) as [E2|E2]; try congruence; [|exact IH].
    destruct (N.eqb_spec (pt_root u) (pt_root t)); [auto|congruence].
  - destruct (N.eqb_spec (pt_root u) r) as [E'|E']; [|exact IH]. destruct (N.eqb_spec (pt_root u) (pt_root t)); [congruence|auto].
Qed.
Lemma find_pt_none r ts : find_pt r ts = None <-> ~ In r (map pt_root ts).
Proof.
  split.
  - intros H N. apply in_map_iff in N. destruct N as (t & <- & Ht). unfold find_pt in H.
    apply (find_none _ _ H) in Ht. rewrite N.eqb_refl in Ht. discriminate.
  - intros H. destruct (find_pt r ts) as [t|] eqn:F; [|auto]. apply find_pt_some in F. destruct F as [F1 F2].
    exfalso. apply H. rewrite <- F2. now apply in_map.
Qed.

Lemma memb_In n l : memb n l = true <-> In n l.
Proof. unfold memb. rewrite existsb_exists. split; [intros (x & Hx & E); apply N.eqb_eq in E; subst x; auto|intros H; exists n; split; [auto|apply N.eqb_refl]]. Qed.
Lemma memb_false n l : memb n l = false <-> ~ In n l.
Proof. rewrite <- memb_In. destruct (memb n l); intuition congruence. Qed.

(** ** Names *)

Lemma nlook_In fn o nm : nlook fn o = Some nm -> In (fn, nm) o.
Proof. induction o as [|[n a] o IH]; cbn; [discriminate|]. destruct (N.eqb_spec n fn) as [->|]; [intros [= ->]; auto|auto]. Qed.
Lemma nlook_intro fn o nm : NoDup (map fst o) -> In (fn, nm) o -> nlook fn o = Some nm.
Proof.
  induction o as [|[n a] o IH]; cbn; intros H []; inversion H as [|? ? H1 H2]; subst.
  - injection H0 as -> ->. now rewrite N.eqb_refl.
  - destruct (N.eqb_spec n fn) as [->|]; [|auto]. exfalso. apply H1. change fn with (fst (fn, nm)). now apply in_map.
Qed.
Lemma nlook_inj fn fn' nm o : NoDup (map snd o) -> nlook fn o = Some nm -> nlook fn' o = Some nm -> fn = fn'.
Proof.
  intros H H1 H2. apply nlook_In in H1, H2. induction o as [|[n a] o IH]; [contradiction|]. cbn in H. inversion H as [|? ? H3 H4]; subst.
  assert (NI : forall x, In (x, nm) o -> a <> nm) by (intros x Hx ->; apply H3; change nm with (snd (x, nm)); now apply in_map).
  destruct H1 as [H1|H1], H2 as [H2|H2]; try congruence.
  - injection H1 as -> ->. now apply NI in H2.
  - injection H2 as -> ->. now apply NI in H1.
  - auto.
Qed.
Lemma nlook_filter (P : fnum * fname -> bool) fn o : (forall a b, P (fn, a) = P (fn, b)) ->
  nlook fn (filter P o) = match nlook fn o with Some a => if P (fn, a) then Some a else None | None => None end.
Proof.
  intros H. induction o as [|[n a] o IH]; cbn; [reflexivity|]. destruct (N.eqb_spec n fn) as [->|E].
  - destruct (P (fn, a)) eqn:X; cbn; [now rewrite N.eqb_refl|]. rewrite IH. destruct (nlook fn o) as [b|]; [|auto].
    now rewrite (H b a), X.
  - destruct (P (n, a)); cbn; [|auto]. destruct (N.eqb_spec n fn); [congruence|auto].
Qed.
Lemma NoDup_map_filter {A B} (f : A -> B) (P : A -> bool) l : NoDup (map f l) -> NoDup (map f (filter P l)).
Proof.
  induction l as [|a l IH]; cbn; intros H; [auto|]. inversion H as [|? ? H1 H2]; subst. destruct (P a); cbn; [|auto].
  constructor; [|auto]. intros X. apply H1. apply in_map_iff in X. destruct X as (b & <- & Hb). apply filter_In in Hb. apply in_map. tauto.
Qed.

Lemma used_by_spec fn ts : used_by fn ts = true <-> exists t l, In t ts /\ In l (pt_levels t) /\ In fn (rl_fts l).
Proof.
  unfold used_by. rewrite existsb_exists. split.
  - intros (t & Ht & H). apply existsb_exists in H. destruct H as (l & Hl & H). apply memb_In in H. eauto.
  - intros (t & l & Ht & Hl & H). exists t. split; auto. apply existsb_exists. exists l. split; auto. now apply memb_In.
Qed.

(** ** Steps keep states well-formed *)

Lemma txn_ok_mono I I' t :
  (forall l fn, In l (pt_levels t) -> In fn (rl_fts l) -> nlook fn (i_open I) <> None -> nlook fn (i_open I') <> None) ->
  i_clast I (pt_root t) <= i_clast I' (pt_root t) -> txn_ok I t -> txn_ok I' t.
Proof.
  intros Ho Hc ((ls & l & E & Er & Hl & Hn) & Hp & Hv). split; [|split]; [|exact Hp|].
  - exists ls, l. split; [exact E|]. split; [exact Er|]. split; [|exact Hn].
    eapply Forall_impl; [|exact Hl]. intros c (H1 & H2 & H3). split; [auto|]. split; [auto|]. lia.
  - rewrite Forall_forall in *. intros x Hx. destruct (Hv x Hx) as [H1 H2]. split; [auto|]. rewrite Forall_forall in *.
    intros fn Hf. apply (Ho x); auto.
Qed.

Lemma note_fn_In fn g l : In g (note_fn fn l) <-> g = fn \/ In g l.
Proof.
  unfold note_fn. destruct (memb fn l) eqn:M; cbn; [|intuition auto]. apply memb_In in M. split; [auto|intros [->|H]; auto].
Qed.
Lemma fold_note_In g a b : In g (fold_right note_fn b a) <-> In g a \/ In g b.
Proof. induction a as [|x a IH]; cbn; [tauto|]. rewrite note_fn_In, IH. intuition auto. Qed.

Lemma istep_wf I x I' : IWf I -> istep I x = Some I' -> IWf I'.
Proof.
  intros [W1 W2 W3 W4 W5 W6] E. destruct x; cbn [istep] in E.
  - destruct (_ <=? _); [|discriminate]; cbn in E. destruct (forallb _ _); [|discriminate]. injection E as <-.
    split; auto.
  - injection E as <-. split; auto.
  - destruct (nlook _ _); [destruct (_ =? _); [|discriminate]; cbn in E|]; injection E as <-; split; auto.
  - injection E as <-. split; auto.
  - injection E as <-. split; auto.
  - destruct (find_pt _ _); [|discriminate]. destruct (pt_prep _); [|discriminate]. injection E as <-. split; auto.
  - destruct par as [p|].
    + destruct (find_inner r p (i_txns I)) as [t|] eqn:F; [|discriminate]. apply find_inner_some in F. destruct F as (F & Ht & Er & Ec).
      destruct (pt_prep t) eqn:Ep; [discriminate|]. cbn [negb] in E.
      destruct (N.ltb_spec (i_clast I r) c) as [L|]; [|discriminate].
      destruct (N.eqb_spec c r) as [|Nr]; [discriminate|]. cbn [negb] in E.
      destruct (Nat.ltb_spec (length (pt_levels t)) MAX_NESTED_TRANSACTIONS) as [LN|]; [|discriminate].
      destruct (_ <? _) eqn:LC in E; [|discriminate]. injection E as <-.
      assert (M : forall u, In u (i_txns I) -> txn_ok (mkIst (i_open I) (set_pt (mkPt r (mkRl c [] [] :: pt_levels t) false) (i_txns I))
         (i_cont I) (i_locks I) (i_used I) (upd2 (i_clast I) r c) (i_ck I)) u).
      { intros u Hu. rewrite Forall_forall in W2. apply (txn_ok_mono I); auto. unfold upd2. cbn.
        destruct (N.eqb_spec (pt_root u) r) as [->|]; lia. }
      split; cbn [i_txns i_open i_used]; auto.
      * now rewrite set_pt_roots.
      * apply set_pt_Forall; [apply Forall_forall; auto|]. specialize (M t Ht).
        destruct M as ((ls & l & E & El & Hl & Hn) & Hp & Hv). split; [|split]; cbn [pt_levels pt_prep pt_root]; [|discriminate|].
        -- exists (mkRl c [] [] :: ls), l. rewrite E, Er in *. cbn. split; [auto|]. split; [auto|]. split.
           ++ constructor; [|exact Hl]. unfold child_ok, upd2. cbn. rewrite N.eqb_refl. split; [lia|]. split; [auto|lia].
           ++ constructor; [|exact Hn]. intros X. apply in_map_iff in X. destruct X as (q & Eq & Hq).
              rewrite Forall_forall in W2. destruct (W2 t Ht) as ((ls' & l' & E' & _ & Hl' & _) & _).
              rewrite E in E'. apply app_inj_tail in E'. destruct E' as [<- <-]. rewrite Forall_forall in Hl'.
              destruct (Hl' q Hq) as (_ & _ & H3). rewrite Er in H3. lia.
        -- constructor; [split; constructor|exact Hv].
      * apply set_pt_Forall; auto. rewrite Forall_forall in W3. cbn. rewrite <- Er. auto.
    + destruct (N.eqb_spec c TXNID_NONE) as [->|]; [|discriminate].
      destruct (memb r (i_used I)) eqn:Mu; [discriminate|]. cbn [negb] in E. apply memb_false in Mu.
      destruct (N.ltb_spec 0 r); [|discriminate]. destruct (N.ltb_spec r TXNID_MAX); [|discriminate]. injection E as <-.
      split; cbn [i_txns i_open i_used]; auto.
      * apply ins_pt_sorted; [auto|]. cbn. intros X. apply Mu. apply in_map_iff in X. destruct X as (t & <- & Ht).
        rewrite Forall_forall in W3. auto.
      * apply ins_pt_Forall; [|eapply Forall_impl; [|exact W2]; intros t; apply txn_ok_mono; [auto|cbn; lia]].
        split; [|split]; cbn; [|auto|].
        -- exists [], (mkRl r [] []). cbn. split; [auto|]. split; [auto|]. split; constructor.
        -- constructor; [split; constructor|constructor].
      * apply ins_pt_Forall; [left; auto|]. eapply Forall_impl; [|exact W3]. intros t Ht. right. auto.
  - destruct (find_inner r c (i_txns I)) as [t|] eqn:F; [|discriminate]. apply find_inner_some in F. destruct F as (F & Ht & Er & Ec).
    destruct (pt_levels t) as [|l1 [|l2 ls2]] eqn:El; [discriminate| |].
    + injection E as <-. split; cbn; auto; [apply del_pt_sorted|apply del_pt_Forall; exact W2|apply del_pt_Forall]; auto.
    + injection E as <-. split; cbn; auto; [now rewrite set_pt_roots| |].
      * apply set_pt_Forall; [exact W2|]. rewrite Forall_forall in W2. specialize (W2 t Ht). unfold merge_child. rewrite El.
        destruct W2 as ((ls & l & E & El' & Hl & Hn) & Hp & Hv). rewrite El in *. split; [|split]; cbn [pt_levels pt_prep pt_root].
        -- destruct ls as [|c0 ls]; [discriminate|]. cbn in E. injection E as <- E. cbn in Hn.
           inversion Hl as [|? ? Hl1 Hl2]; subst. inversion Hn as [|? ? Hn1 Hn2]; subst. destruct ls as [|p0 ls]; cbn in E; injection E as -> ->.
           ++ exists [], (mkRl (rl_xid l) (rl_ents l1 ++ rl_ents l) (fold_right note_fn (rl_fts l) (rl_fts l1))). cbn.
              split; [auto|]. split; [auto|]. split; constructor.
           ++ exists (mkRl (rl_xid p0) (rl_ents l1 ++ rl_ents p0) (fold_right note_fn (rl_fts p0) (rl_fts l1)) :: ls), l.
              split; [auto|]. split; [auto|]. inversion Hl2; subst. split; [constructor; auto|]. exact Hn2.
        -- intros X. apply Hp in X. discriminate.
        -- inversion Hv as [|? ? V1 V2]; subst. inversion V2 as [|? ? V3 V4]; subst. constructor; [|auto].
           destruct V1 as [A1 A2], V3 as [B1 B2]. split; cbn.
           ++ rewrite Forall_app. split; (eapply Forall_impl; [|eassumption]); intros e He; apply memb_In in He; apply memb_In; apply fold_note_In; auto.
           ++ rewrite Forall_forall in *. intros fn Hf. apply fold_note_In in Hf. destruct Hf; auto.
      * apply set_pt_Forall; [exact W3|]. rewrite Forall_forall in W3. unfold merge_child. rewrite El. cbn. auto.
  - destruct (find_inner r c (i_txns I)) as [t|] eqn:F; [|discriminate]. apply find_inner_some in F. destruct F as (F & Ht & Er & Ec).
    destruct (pt_levels t) as [|l1 ls2] eqn:El; [discriminate|]. destruct ls2 as [|l2 ls2]; cbn [is_nil] in E; injection E as <-.
    + split; cbn; auto; [apply del_pt_sorted|apply del_pt_Forall; exact W2|apply del_pt_Forall]; auto.
    + split; cbn; auto; [now rewrite set_pt_roots| |].
      * apply set_pt_Forall; [exact W2|]. rewrite Forall_forall in W2. specialize (W2 t Ht). unfold pop_level. rewrite El.
        destruct W2 as ((ls & l & E & El' & Hl & Hn) & Hp & Hv). rewrite El in *. split; [|split]; cbn [pt_levels pt_prep pt_root tl].
        -- destruct ls as [|c0 ls]; [discriminate|]. cbn in E. injection E as <- E. inversion Hl; subst. cbn in Hn. inversion Hn; subst.
           exists ls, l. auto.
        -- intros X. apply Hp in X. discriminate.
        -- inversion Hv; auto.
      * apply set_pt_Forall; [exact W3|]. rewrite Forall_forall in W3. unfold pop_level. cbn. auto.
  - destruct (find_inner r TXNID_NONE (i_txns I)) as [t|] eqn:F; [|discriminate]. apply find_inner_some in F. destruct F as (F & Ht & Er & Ec).
    destruct (pt_prep t) eqn:Ep; [discriminate|]. injection E as <-. split; cbn; auto; [now rewrite set_pt_roots| |].
    + apply set_pt_Forall; [exact W2|]. rewrite Forall_forall in W2. specialize (W2 t Ht). destruct W2 as (H1 & Hp & Hv).
      split; [|split]; cbn; [rewrite <- Er; exact H1| |exact Hv].
      intros _. destruct H1 as (ls & l & E & _ & Hl & _). unfold pt_child in Ec. rewrite E in *.
      destruct ls as [|c0 [|c1 ls]]; cbn in *; auto; inversion Hl as [|? ? (X & _) ?]; subst; exfalso; apply X; exact Ec.
    + apply set_pt_Forall; [exact W3|]. rewrite Forall_forall in W3. cbn. rewrite <- Er. auto.
  - destruct (nlook fn (i_open I)) eqn:L; [discriminate|]. cbn in E. destruct (existsb _ _) eqn:X; [discriminate|]. injection E as <-.
    split; cbn; auto.
    + eapply Forall_impl; [|exact W2]. intros t. apply txn_ok_mono; [|cbn; lia]. intros l g _ _ Hg. cbn. destruct (_ =? _); [discriminate|auto].
    + constructor; [|auto]. intros H. apply in_map_iff in H. destruct H as ([g n] & E & Hp). cbn in E. subst g.
      apply nlook_intro in Hp; auto. congruence.
    + constructor; [|auto]. intros H. apply in_map_iff in H. destruct H as (p & E & Hp).
      assert (T : existsb (fun p => snd p =? nm) (i_open I) = true) by (apply existsb_exists; exists p; split; [auto|now apply N.eqb_eq]).
      congruence.
  - destruct (nlook fn (i_open I)) as [n|] eqn:L; [|discriminate]. destruct (N.eqb_spec n nm) as [->|]; [|discriminate]. cbn in E.
    destruct (used_by fn (i_txns I)) eqn:U; [discriminate|]. injection E as <-. split; cbn; auto.
    + rewrite Forall_forall in *. intros t Ht. apply (txn_ok_mono I); [|cbn; lia|auto]. intros l g Hl Hg H. cbn [i_open].
      rewrite nlook_filter by reflexivity. destruct (nlook g (i_open I)); [|congruence]. cbn. destruct (N.eqb_spec g fn) as [->|]; [|discriminate].
      exfalso. enough (used_by fn (i_txns I) = true) by congruence. apply used_by_spec. eauto.
    + now apply NoDup_map_filter.
    + now apply NoDup_map_filter.
  - destruct (find_inner r c (i_txns I)) as [t|] eqn:F; [|discriminate]. apply find_inner_some in F. destruct F as (F & Ht & Er & Ec).
    destruct (nlook fn (i_open I)) as [nm|] eqn:L; [|discriminate]. destruct (pt_prep t) eqn:Ep; [discriminate|]. cbn in E.
    destruct (lock_free _ _ _ _); [|discriminate]. injection E as <-. split; cbn; auto; [now rewrite set_pt_roots| |].
    + apply set_pt_Forall; [exact W2|]. rewrite Forall_forall in W2. specialize (W2 t Ht). unfold push_rent.
      destruct (pt_levels t) as [|l1 ls1] eqn:El; [exact W2|].
      destruct W2 as ((ls & l & E & El' & Hl & Hn) & Hp & Hv). rewrite El in *. split; [|split]; cbn [pt_levels pt_prep pt_root].
      * destruct ls as [|c0 ls]; cbn in E; injection E as -> ->.
        -- exists [], (mkRl (rl_xid l) (mkEnt fn k (went w) :: rl_ents l) (note_fn fn (rl_fts l))). cbn. auto.
        -- exists (mkRl (rl_xid c0) (mkEnt fn k (went w) :: rl_ents c0) (note_fn fn (rl_fts c0)) :: ls), l. cbn in *.
           split; [auto|]. split; [auto|]. inversion Hl; subst. split; [constructor; auto|auto].
      * intros X. congruence.
      * inversion Hv as [|? ? [V1 V2] V3]; subst. constructor; [|auto]. split; cbn.
        -- constructor; [apply memb_In, note_fn_In; auto|]. eapply Forall_impl; [|exact V1]. intros e He.
           apply memb_In in He. apply memb_In, note_fn_In. auto.
        -- rewrite Forall_forall in *. intros g Hg. apply note_fn_In in Hg. destruct Hg as [->|Hg]; [cbn; congruence|auto].
    + apply set_pt_Forall; [exact W3|]. rewrite Forall_forall in W3. unfold push_rent. destruct (pt_levels t); cbn; auto.
  - destruct recover; injection E as <-; [|split; auto]. split; cbn; auto.
    + rewrite Forall_forall in *. intros t Ht. apply (txn_ok_mono I); [|cbn; lia|auto]. intros l g Hl Hg H. cbn [i_open].
      rewrite nlook_filter by reflexivity. destruct (nlook g (i_open I)); [|congruence]. cbn.
      assert (U : used_by g (i_txns I) = true) by (apply used_by_spec; eauto). rewrite U. discriminate.
    + now apply NoDup_map_filter.
    + now apply NoDup_map_filter.
Qed.

Lemma irun_wf l : forall I I', IWf I -> irun I l = Some I' -> IWf I'.
Proof.
  induction l as [|x l IH]; intros I I' W E; cbn in E; [injection E as <-; auto|].
  destruct (istep I x) as [I1|] eqn:Ex; [|discriminate]. eapply IH; [|exact E]. eapply istep_wf; eauto.
Qed.
