(** The running system keeps log, checkpoint and disk together. *)
From Coq Require Import Sorted.
From Verif Require Import Base UleModel MgrModel MvccModel RecModel RecSpec RecIdeal RecFiles RecSim RecBlock RecReplay.
Open Scope N_scope.

(** The content of a dictionary after the first [p] records. *)
Definition C (log : list lrec) (p : nat) (nm : fname) : mlist := cat ist_init log 0 p nm.

Lemma C_app l1 l2 p nm : (p <= length l1)%nat -> C (l1 ++ l2) p nm = C l1 p nm.
Proof. intros H. apply cat_app. cbn. lia. Qed.
Lemma C_all log I p nm : irun ist_init log = Some I -> (length log <= p)%nat -> C log p nm = i_cont I nm.
Proof. intros H Hp. apply cat_all; auto. Qed.

Definition todo (s : sys) : list (fnum * mlist) := match y_ck s with Some k => k_todo k | None => [] end.
Definition settled (s : sys) (nm : fname) : Prop :=
  forall fn f, flook fn (y_files s) = Some f -> of_name f = nm -> of_dirty f = false /\ ~ In fn (map fst (todo s)).

Record Core (s : sys) (I : ist) : Prop := {
  c_run : irun ist_init (y_log s) = Some I;
  c_txns : y_txns s = i_txns I;
  c_locks : forall n k, y_locks s n k = i_locks I n k;
  c_clast : Forall (fun t => pt_prep t = false -> i_clast I (pt_root t) <= y_clast s (pt_root t)) (i_txns I);
  c_used : Forall (fun r => r <= y_last s) (i_used I);
  c_ck : i_ck I <= y_last s;
  c_idle : Forall (fun r => 0 < r /\ r < TXNID_MAX /\ r <= y_last s /\ ~ In r (i_used I)) (y_idle s);
  c_fm : Fmatch (y_files s) (i_open I);
  c_fc : forall fn f, flook fn (y_files s) = Some f -> of_msgs f = i_cont I (of_name f);
  c_fl : (y_flushed s <= length (y_log s))%nat;
  c_disk : forall nm, exists v m, newest (y_disk s) nm = Some (v, m) /\ (v <= y_flushed s)%nat /\ (settled s nm -> m = i_cont I nm)
}.

(** The rollback file on disk, or its copy, is current unless it is dirty. *)
Definition Rbd (s : sys) : Prop :=
  y_rbdirty s = false ->
  match y_ck s with
  | Some (mkCk _ _ _ (Some m) _ _) => m = rb_of (y_txns s)
  | _ => exists v rest, y_rb s = (v, rb_of (y_txns s)) :: rest
  end.

(** A checkpoint in progress. *)
Record Prog (s : sys) (I : ist) (k : ckst) (pre : list lrec) (J : ist) (last : txnid) (fs0 : files) (mid : list lrec) : Prop := {
  p_log : y_log s = pre ++ ck_recs last fs0 (i_txns J) ++ mid;
  p_pre : irun ist_init pre = Some J;
  p_begun : Begun J last fs0 mid;
  p_lsn : k_lsn k = S (length pre);
  p_nf : k_nf k = S (length fs0);
  p_nx : k_nx k = length (flat_map still_of (i_txns J));
  p_nodup : NoDup (map fst (k_todo k));
  p_todo : forall fn m, In (fn, m) (k_todo k) -> In fn (k_pin k)
     /\ exists f, flook fn (y_files s) = Some f /\ m = i_cont J (of_name f) /\ (of_dirty f = false -> m = i_cont I (of_name f));
  p_disk : forall nm v m, newest (y_disk s) nm = Some (v, m) ->
     (forall fn f, flook fn (y_files s) = Some f -> of_name f = nm -> ~ In fn (map fst (k_todo k))) ->
     m = C (y_log s) (Nat.max v (length pre)) nm;
  p_rb : match k_rb k with
         | Some m => m = rb_of (i_txns J)
         | None => exists v rest, y_rb s = (v, rb_of (i_txns J)) :: rest /\ (v <= S (length pre))%nat
         end
}.

(** The last complete checkpoint. *)
Record Comp (s : sys) (pre : list lrec) (J : ist) (last : txnid) (fs0 : files) (mid post : list lrec) : Prop := {
  b_log : y_log s = pre ++ ck_recs last fs0 (i_txns J) ++ mid
            ++ LEndCk (S (length pre)) (S (length fs0)) (length (flat_map still_of (i_txns J))) :: post;
  b_pre : irun ist_init pre = Some J;
  b_begun : Begun J last fs0 mid;
  b_post : Forall (fun x => is_end x = false /\ is_recovered x = false) post;
  b_end : (length pre + length (ck_recs last fs0 (i_txns J)) + length mid < y_flushed s)%nat;
  b_disk : forall nm v m, newest (y_disk s) nm = Some (v, m) -> m = C (y_log s) (Nat.max v (length pre)) nm;
  b_rb : exists v, find (fun v => (fst v <=? S (length pre))%nat) (y_rb s) = Some (v, rb_of (i_txns J));
  b_hd : match y_ck s with Some k => k_rb k <> None | None => True end ->
         exists v rest, y_rb s = (v, rb_of (i_txns J)) :: rest /\ (v <= S (length pre))%nat;
  b_ck : match y_ck s with
         | Some k => (length pre + length (ck_recs last fs0 (i_txns J)) + length mid < k_lsn k)%nat
         | None => True
         end
}.

(** [ph]: recovery has not finished its checkpoint yet. *)
Definition Inv (ph : bool) (s : sys) (I : ist) : Prop :=
  Core s I /\ Rbd s
  /\ match y_ck s with
     | Some k => exists pre J last fs0 mid, Prog s I k pre J last fs0 mid
     | None => ph = true -> y_rbdirty s = true
     end
  /\ (ph = false -> exists pre J last fs0 mid post, Comp s pre J last fs0 mid post).

Lemma Core_wf s I : Core s I -> IWf I.
Proof. intros H. eapply irun_wf; [apply IWf_init|]. apply (c_run _ _ H). Qed.

(** A fresh root has had no children. *)
Definition cl0 (I : ist) : Prop := forall r, ~ In r (i_used I) -> i_clast I r = 0.
Lemma istep_cl0 I x I' : IWf I -> cl0 I -> istep I x = Some I' -> cl0 I' /\ incl (i_used I) (i_used I').
Proof.
  intros W H E. destruct x; cbn [istep] in E.
  - destruct (_ <=? _); [|discriminate]. destruct (forallb _ _); [|discriminate]. injection E as <-. split; [exact H|apply incl_refl].
  - injection E as <-. split; [exact H|apply incl_refl].
  - destruct (nlook _ _); [destruct (_ =? _); [|discriminate]|]; injection E as <-; (split; [exact H|apply incl_refl]).
  - injection E as <-. split; [exact H|apply incl_refl].
  - injection E as <-. split; [exact H|apply incl_refl].
  - destruct (find_pt _ _); [|discriminate]. destruct (pt_prep _); [|discriminate]. injection E as <-. split; [exact H|apply incl_refl].
  - destruct par as [p|].
    + destruct (find_inner _ _ _) as [t|] eqn:F; [|discriminate]. destruct (pt_prep t); [discriminate|]. cbn [negb] in E.
      destruct (i_clast I r <? c); [|discriminate]. destruct (c =? r); [discriminate|]. cbn [negb] in E.
      destruct (_ <? _)%nat; [|discriminate]. destruct (_ <? _); [|discriminate]. injection E as <-. split; [|apply incl_refl].
      intros q Hq. cbn [i_used i_clast] in *. unfold upd2. destruct (N.eqb_spec q r) as [->|]; [|apply H; auto].
      exfalso. apply Hq. apply find_inner_some in F. destruct F as (_ & Ht & <- & _). pose proof (iw_used _ W) as U. rewrite Forall_forall in U. auto.
    + destruct (c =? _); [|discriminate]. destruct (memb _ _); [discriminate|]. cbn [negb] in E.
      destruct (0 <? r); [|discriminate]. destruct (r <? _); [|discriminate]. injection E as <-. split.
      * intros q Hq. cbn [i_used i_clast] in *. apply H. intros X. apply Hq. right. auto.
      * intros q Hq. right. auto.
  - destruct (find_inner _ _ _) as [t|]; [|discriminate]. destruct (pt_levels t) as [|l1 [|l2 ls]]; [discriminate| |]; injection E as <-; (split; [exact H|apply incl_refl]).
  - destruct (find_inner _ _ _) as [t|]; [|discriminate]. destruct (pt_levels t) as [|l1 ls]; [discriminate|]. injection E as <-. split; [exact H|apply incl_refl].
  - destruct (find_inner _ _ _) as [t|]; [|discriminate]. destruct (pt_prep t); [discriminate|]. injection E as <-. split; [exact H|apply incl_refl].
  - destruct (nlook _ _); [discriminate|]. cbn in E. destruct (existsb _ _); [discriminate|]. injection E as <-. split; [exact H|apply incl_refl].
  - destruct (nlook _ _) as [n|]; [|discriminate]. destruct (n =? nm); [|discriminate]. destruct (used_by _ _); [discriminate|]. injection E as <-. split; [exact H|apply incl_refl].
  - destruct (find_inner _ _ _) as [t|]; [|discriminate]. destruct (nlook _ _) as [n|]; [|discriminate]. destruct (pt_prep t); [discriminate|]. cbn [negb] in E.
    destruct (lock_free _ _ _ _); [|discriminate]. injection E as <-. split; [exact H|apply incl_refl].
  - destruct recover; injection E as <-; (split; [exact H|apply incl_refl]).
Qed.
Lemma irun_cl0 l : forall I I', IWf I -> cl0 I -> irun I l = Some I' -> cl0 I'.
Proof.
  induction l as [|x l IH]; intros I I' W H E; cbn in E; [injection E as <-; auto|].
  destruct (istep I x) as [I1|] eqn:Ex; [|discriminate]. eapply IH; [| |exact E]; [eapply istep_wf; eauto|eapply istep_cl0; eauto].
Qed.
Lemma Core_cl0 s I : Core s I -> cl0 I.
Proof. intros H. eapply irun_cl0; [apply IWf_init| |apply (c_run _ _ H)]. intros r _. reflexivity. Qed.

(** * Growing the log by one ordinary record *)

Lemma Inv_grow ph s I s' x I' : Inv ph s I -> istep I x = Some I' -> is_ck x = false -> is_recovered x = false ->
  y_log s' = y_log s ++ [x] -> y_rb s' = y_rb s -> y_ck s' = y_ck s -> (y_flushed s <= y_flushed s')%nat ->
  (ph = true -> y_rbdirty s' = y_rbdirty s) ->
  Core s' I' -> Rbd s' ->
  (forall nm v m, newest (y_disk s') nm = Some (v, m) -> newest (y_disk s) nm = Some (v, m) \/ (v = length (y_log s') /\ m = i_cont I' nm)) ->
  (forall fn f, In fn (map fst (todo s)) -> flook fn (y_files s) = Some f -> exists f', flook fn (y_files s') = Some f' /\ of_name f' = of_name f
     /\ (of_dirty f' = false -> of_dirty f = false /\ i_cont I' (of_name f) = i_cont I (of_name f))) ->
  Inv ph s' I'.
Proof.
  intros (Co & Rb & Pr & Cp) Ex X1 X2 El Er Ek Ef Ed Co' Rb' D T.
  assert (Dk : forall nm v m n, (n <= length (y_log s))%nat -> newest (y_disk s') nm = Some (v, m) ->
     (newest (y_disk s) nm = Some (v, m) -> m = C (y_log s) (Nat.max v n) nm) -> m = C (y_log s') (Nat.max v n) nm).
  { intros nm v m n Hn H1 H2. destruct (D _ _ _ H1) as [H3|[H3 H4]].
    - rewrite (H2 H3), El. symmetry. apply C_app. destruct (c_disk _ _ Co nm) as (v' & m' & Ev & Hv & _). rewrite H3 in Ev. injection Ev as <- <-.
      pose proof (c_fl _ _ Co). lia.
    - rewrite H4. symmetry. apply C_all; [apply (c_run _ _ Co')|lia]. }
  split; [auto|]. split; [auto|]. split.
  - rewrite Ek. destruct (y_ck s) as [k|] eqn:Eck; [|intros Hp; rewrite Ed; auto].
    destruct Pr as (pre & J & last & fs0 & mid & P). exists pre, J, last, fs0, (mid ++ [x]).
    assert (Et : todo s = k_todo k) by (unfold todo; now rewrite Eck). rewrite Et in T.
    split.
    + rewrite El, (p_log _ _ _ _ _ _ _ _ P), <- !app_assoc. reflexivity.
    + apply (p_pre _ _ _ _ _ _ _ _ P).
    + destruct (p_begun _ _ _ _ _ _ _ _ P). split; auto. rewrite Forall_app. auto.
    + apply (p_lsn _ _ _ _ _ _ _ _ P).
    + apply (p_nf _ _ _ _ _ _ _ _ P).
    + apply (p_nx _ _ _ _ _ _ _ _ P).
    + apply (p_nodup _ _ _ _ _ _ _ _ P).
    + intros fn m Hm. destruct (p_todo _ _ _ _ _ _ _ _ P fn m Hm) as (Hp & f & Hf & Em & Hd). split; [auto|].
      destruct (T fn f) as (f' & Hf' & En & Hd'); auto; [change fn with (fst (fn, m)); now apply in_map|].
      exists f'. split; [auto|]. rewrite En. split; [auto|]. intros Hc. destruct (Hd' Hc) as [Hc1 Hc2]. rewrite Hc2. auto.
    + intros nm v m Hn Hq. apply Dk; auto; [rewrite (p_log _ _ _ _ _ _ _ _ P), app_length; lia|].
      intros Hn'. apply (p_disk _ _ _ _ _ _ _ _ P); auto. intros fn f Hf En Hi. destruct (T fn f Hi Hf) as (f' & Hf' & En' & _).
      apply (Hq fn f'); auto. congruence.
    + rewrite Er. apply (p_rb _ _ _ _ _ _ _ _ P).
  - intros Hp. destruct (Cp Hp) as (pre & J & last & fs0 & mid & post & P). exists pre, J, last, fs0, mid, (post ++ [x]). split.
    + rewrite El, (b_log _ _ _ _ _ _ _ P). rewrite <- !app_assoc. reflexivity.
    + apply (b_pre _ _ _ _ _ _ _ P).
    + apply (b_begun _ _ _ _ _ _ _ P).
    + rewrite Forall_app. split; [apply (b_post _ _ _ _ _ _ _ P)|]. constructor; [|auto]. split; auto. destruct x; auto; discriminate.
    + pose proof (b_end _ _ _ _ _ _ _ P). lia.
    + intros nm v m Hn. apply Dk; auto; [rewrite (b_log _ _ _ _ _ _ _ P), app_length; lia|]. apply (b_disk _ _ _ _ _ _ _ P).
    + rewrite Er. apply (b_rb _ _ _ _ _ _ _ P).
    + rewrite Er, Ek. apply (b_hd _ _ _ _ _ _ _ P).
    + rewrite Ek. apply (b_ck _ _ _ _ _ _ _ P).
Qed.

(** Nothing logged, nothing written. *)
Lemma Inv_quiet ph s I s' : Inv ph s I -> Core s' I -> y_log s' = y_log s -> y_files s' = y_files s -> y_txns s' = y_txns s ->
  y_disk s' = y_disk s -> y_rb s' = y_rb s -> y_rbdirty s' = y_rbdirty s -> y_ck s' = y_ck s -> (y_flushed s <= y_flushed s')%nat -> Inv ph s' I.
Proof.
  intros (Co & Rb & Pr & Cp) Co' El Ef Et Ed Er Erd Ek Hfl. split; [auto|]. split; [unfold Rbd; rewrite Erd, Ek, Et, Er; exact Rb|]. split.
  - rewrite Ek, Erd. destruct (y_ck s) as [k|]; [|auto]. destruct Pr as (pre & J & last & fs0 & mid & [P1 P2 P3 P4 P5 P6 P7 P8 P9 P10]).
    exists pre, J, last, fs0, mid. split; auto; try (rewrite ?El, ?Ef, ?Ed, ?Er; auto; fail).
  - intros Hp. destruct (Cp Hp) as (pre & J & last & fs0 & mid & post & [P1 P2 P3 P4 P5 P6 P7 P8 P9]). exists pre, J, last, fs0, mid, post.
    split; auto; try (rewrite ?El, ?Ef, ?Ed, ?Er, ?Ek; auto; fail). lia.
Qed.
