(** env_update_multiple: what its loop over old and new keys leaves to do. *)
From Coq Require Import Permutation.
From Verif Require Import Base Bytes LtSpec KOrd MulModel MulSpec MulProofs.
Open Scope nat_scope.

(** ** Swapping *)
Lemma nth_split {A} (l : list A) i x : nth_error l i = Some x -> l = firstn i l ++ x :: skipn (S i) l.
Proof.
  revert i. induction l as [|a l IH]; intros [|i] H; cbn in *; try congruence.
  f_equal. apply IH, H.
Qed.
Lemma firstn_S {A} (l : list A) i x : nth_error l i = Some x -> firstn (S i) l = firstn i l ++ [x].
Proof.
  revert i. induction l as [|a l IH]; intros [|i] H; cbn in H; try congruence.
  - injection H as ->. reflexivity.
  - cbn [firstn app]. f_equal. apply IH, H.
Qed.
Lemma nth_firstn {A} (l : list A) i j : i < j -> nth_error (firstn j l) i = nth_error l i.
Proof. revert i j. induction l as [|a l IH]; intros [|i] [|j] H; cbn; try lia; try reflexivity. apply IH; lia. Qed.
Lemma nth_skipn {A} (l : list A) i j : nth_error (skipn j l) i = nth_error l (j + i).
Proof. revert j. induction l as [|a l IH]; intros [|j]; cbn; try reflexivity; [destruct i; reflexivity|apply IH]. Qed.
Lemma skipn_S {A} (l l' : list A) i : skipn i l = skipn i l' -> skipn (S i) l = skipn (S i) l'.
Proof.
  intros H. assert (Q : forall (l : list A), skipn (S i) l = skipn 1 (skipn i l)).
  { clear. induction i as [|i IH]; intros l; [reflexivity|]. destruct l as [|a l]; [reflexivity|]. exact (IH l). }
  rewrite !Q, H. reflexivity.
Qed.
Lemma nth_skipn_eq {A} (l l' : list A) i : skipn i l = skipn i l' -> nth_error l i = nth_error l' i.
Proof. intros H. apply (f_equal (fun x => nth_error x 0)) in H. rewrite !nth_skipn, Nat.add_0_r in H. exact H. Qed.

Lemma set_nth_length {A} i (x : A) l : i < length l -> length (set_nth i x l) = length l.
Proof. intros H. unfold set_nth. rewrite app_length, firstn_length. cbn [length]. rewrite skipn_length. lia. Qed.
Lemma set_nth_firstn {A} i j (x : A) l : j <= i -> i < length l -> firstn j (set_nth i x l) = firstn j l.
Proof.
  intros H H2. unfold set_nth. rewrite firstn_app, firstn_firstn, Nat.min_l by lia.
  rewrite firstn_length, Nat.min_l by lia. replace (j - i) with 0 by lia. cbn [firstn]. apply app_nil_r.
Qed.
Lemma set_nth_skipn {A} i j (x : A) l : i < j -> i < length l -> skipn j (set_nth i x l) = skipn j l.
Proof.
  revert i j. induction l as [|a l IH]; intros i j H H2; [cbn in H2; lia|].
  destruct j as [|j]; [lia|]. destruct i as [|i]; [reflexivity|].
  change (set_nth (S i) x (a :: l)) with (a :: set_nth i x l). cbn [skipn]. apply IH; cbn in H2; lia.
Qed.
Lemma set_nth_at {A} i (x : A) l : i < length l -> nth_error (set_nth i x l) i = Some x.
Proof.
  intros H. unfold set_nth. rewrite nth_error_app2; rewrite firstn_length, Nat.min_l by lia; [|lia].
  rewrite Nat.sub_diag. reflexivity.
Qed.

Lemma swap_if_spec {A} i j (l : list A) x : i <= j -> nth_error l j = Some x ->
  exists l', swap_if i j l = Some l' /\ length l' = length l /\ firstn (S i) l' = firstn i l ++ [x] /\ skipn (S j) l' = skipn (S j) l.
Proof.
  intros Hij Hx. pose proof (proj1 (nth_error_Some l j) ltac:(congruence)) as Hl. unfold swap_if.
  destruct (i =? j) eqn:E.
  - apply Nat.eqb_eq in E; subst j. exists l. repeat split. apply firstn_S, Hx.
  - apply Nat.eqb_neq in E. unfold swap. destruct (nth_error l i) as [y|] eqn:Ey; [|apply nth_error_None in Ey; lia].
    rewrite Hx. eexists; split; [reflexivity|].
    assert (Li : length (set_nth i x l) = length l) by (apply set_nth_length; lia).
    repeat split.
    + rewrite set_nth_length by lia. exact Li.
    + rewrite set_nth_firstn by lia. rewrite (firstn_S _ i x) by (apply set_nth_at; lia).
      rewrite set_nth_firstn by lia. reflexivity.
    + rewrite set_nth_skipn by lia. apply set_nth_skipn; lia.
Qed.

(** ** One dictionary *)
Section U.
Context (e : menv) (d : nat) (fl : flags) (O : list bytes) (N : list (bytes * bytes)).

(** What has been seen of the old keys is to be deleted or matched by a new key;
    what has been seen of the new rows is to be put, or skipped. *)
Record uinv (D : list bytes) (M : list bytes) (P S : list (bytes * bytes)) (u : uvar) : Prop := mkUinv {
  ui_olen : length (u_old u) = length O;
  ui_klen : length (u_nk u) = length N;
  ui_vlen : length (u_nv u) = length N;
  ui_io : u_io u <= length O;
  ui_in : u_in u <= length N;
  ui_iou : u_iou u = length D /\ u_iou u <= u_io u;
  ui_inu : u_inu u = length P /\ u_inu u <= u_in u;
  ui_D : firstn (u_iou u) (u_old u) = D;
  ui_Pk : firstn (u_inu u) (u_nk u) = map fst P;
  ui_Pv : firstn (u_inu u) (u_nv u) = map snd P;
  ui_orest : skipn (u_io u) (u_old u) = skipn (u_io u) O;
  ui_krest : skipn (u_in u) (u_nk u) = skipn (u_in u) (map fst N);
  ui_vrest : skipn (u_in u) (u_nv u) = skipn (u_in u) (map snd N);
  ui_operm : Permutation (firstn (u_io u) O) (D ++ M);
  ui_nperm : Permutation (firstn (u_in u) N) (P ++ S);
  ui_M : forall k, In k M -> exists k' v, In (k', v) (P ++ S) /\ keq (e_cmp e d) k k';
  ui_S : forall k v, In (k, v) S -> v = [] /\ In k M;
  ui_nums : u_del u = length D /\ u_put u = length P /\ u_skip u = length S
}.

Definition uheld (s : mst) (D : list bytes) (P : list (bytes * bytes)) : Prop :=
  (forall k, In k D -> held e s d fl k) /\ (forall k v, In (k, v) P -> held e s d fl k).

Lemma uturn_spec s D M P S u s' r :
  uinv D M P S u -> uheld s D P -> (u_io u < length O \/ u_in u < length N) -> uturn e s d fl u = (s', r) ->
  calm s s' /\
  match r with
  | inl x => x <> EBug
  | inr u' => exists D' M' P' S', uinv D' M' P' S' u' /\ uheld s' D' P' /\ u_io u + u_in u < u_io u' + u_in u'
  end.
Proof.
  intros I (HD & HP) Hlt. destruct I. destruct ui_iou0 as [io1 io2], ui_inu0 as [in1 in2], ui_nums0 as (n1 & n2 & n3).
  assert (Eo : nth_error (u_old u) (u_io u) = nth_error O (u_io u)) by (apply nth_skipn_eq; assumption).
  assert (Ek : nth_error (u_nk u) (u_in u) = nth_error (map fst N) (u_in u)) by (apply nth_skipn_eq; assumption).
  assert (Ev : nth_error (u_nv u) (u_in u) = nth_error (map snd N) (u_in u)) by (apply nth_skipn_eq; assumption).
  rewrite nth_error_map in Ek, Ev.
  (* putting the current row *)
  assert (Put : forall s0 kn vn (locked both : bool) s' r,
    nth_error N (u_in u) = Some (kn, vn) -> calm s s0 -> (locked = true -> held e s0 d fl kn) ->
    (both = true -> exists ko, nth_error O (u_io u) = Some ko /\ keq (e_cmp e d) ko kn) ->
    (if size_ok kn vn then
      match (if locked then (s0, None) else point_lock e s0 d fl kn) with
      | (s, Some x) => (s, inl x)
      | (s, None) =>
        match swap_if (u_inu u) (u_in u) (u_nk u), swap_if (u_inu u) (u_in u) (u_nv u) with
        | Some nk, Some nv =>
          (s, inr (mkU (u_old u) nk nv (if both then Datatypes.S (u_io u) else u_io u) (Datatypes.S (u_in u)) (u_iou u) (Datatypes.S (u_inu u)) (u_skip u) (u_del u) (Datatypes.S (u_put u))))
        | _, _ => (s, inl EBug)
        end
      end
    else (s0, inl EInval)) = (s', r) ->
    calm s s' /\
    match r with
    | inl x => x <> EBug
    | inr u' => exists D' M' P' S', uinv D' M' P' S' u' /\ uheld s' D' P' /\ u_io u + u_in u < u_io u' + u_in u'
    end).
  { intros s0 kn vn locked both s2 r2 En Hc Hl Hb. destruct (size_ok kn vn); [|intros [= <- <-]; split; [exact Hc|discriminate]].
    destruct (if locked then (s0, None) else point_lock e s0 d fl kn) as [s1 r1] eqn:El.
    assert (C1 : calm s s1 /\ (r1 = None -> held e s1 d fl kn) /\ (forall x, r1 = Some x -> x = ELock)).
    { destruct locked; [injection El as <- <-; repeat split; auto; try apply Hc; congruence|].
      apply point_lock_spec in El as (A & B & C). split; [eapply calm_trans; eauto|split; assumption]. }
    destruct C1 as (C1 & H1 & X1). destruct r1 as [x|].
    { intros [= <- <-]. split; [exact C1|]. rewrite (X1 x eq_refl). discriminate. }
    specialize (H1 eq_refl).
    destruct (swap_if_spec (u_inu u) (u_in u) (u_nk u) kn in2) as (nk & -> & K1 & K2 & K3).
    { rewrite Ek, En. reflexivity. }
    destruct (swap_if_spec (u_inu u) (u_in u) (u_nv u) vn in2) as (nv & -> & V1 & V2 & V3).
    { rewrite Ev, En. reflexivity. }
    intros [= <- <-]. split; [exact C1|].
    pose proof (proj1 (nth_error_Some N (u_in u)) ltac:(congruence)) as Hn.
    destruct both.
    - destruct (Hb eq_refl) as (ko & Eko & Keq).
      pose proof (proj1 (nth_error_Some O (u_io u)) ltac:(congruence)) as Ho.
      exists D, (M ++ [ko]), (P ++ [(kn, vn)]), S. split; [constructor; cbn [u_old u_nk u_nv u_io u_in u_iou u_inu u_skip u_del u_put]|split; [|cbn [u_io u_in]; lia]].
      all: rewrite ?map_app, ?app_length; cbn [map fst snd length]; try (auto; lia).
      + rewrite K2, ui_Pk0. reflexivity.
      + rewrite V2, ui_Pv0. reflexivity.
      + apply skipn_S, ui_orest0.
      + rewrite K3. apply skipn_S, ui_krest0.
      + rewrite V3. apply skipn_S, ui_vrest0.
      + rewrite (firstn_S _ _ _ Eko), app_assoc. apply Permutation_app_tail, ui_operm0.
      + rewrite (firstn_S _ _ _ En), <- app_assoc.
        eapply perm_trans; [apply Permutation_app_tail, ui_nperm0|]. rewrite <- app_assoc.
        apply Permutation_app_head, Permutation_app_comm.
      + intros k Hk. apply in_app_iff in Hk as [Hk|[<-|[]]].
        * destruct (ui_M0 k Hk) as (k' & v & A & B). exists k', v. split; [|exact B].
          rewrite !in_app_iff in *. tauto.
        * exists kn, vn. split; [rewrite !in_app_iff; cbn; tauto|exact Keq].
      + intros k v Hk. destruct (ui_S0 k v Hk). split; [assumption|]. apply in_app_iff; tauto.
      + split; [intros k Hk; eapply held_calm; eauto|]. intros k v Hk. apply in_app_iff in Hk as [Hk|[[= <- <-]|[]]]; [eapply held_calm; eauto|exact H1].
    - exists D, M, (P ++ [(kn, vn)]), S. split; [constructor; cbn [u_old u_nk u_nv u_io u_in u_iou u_inu u_skip u_del u_put]|split; [|cbn [u_io u_in]; lia]].
      all: rewrite ?map_app, ?app_length; cbn [map fst snd length]; try (auto; lia).
      + rewrite K2, ui_Pk0. reflexivity.
      + rewrite V2, ui_Pv0. reflexivity.
      + rewrite K3. apply skipn_S, ui_krest0.
      + rewrite V3. apply skipn_S, ui_vrest0.
      + rewrite (firstn_S _ _ _ En), <- app_assoc.
        eapply perm_trans; [apply Permutation_app_tail, ui_nperm0|]. rewrite <- app_assoc.
        apply Permutation_app_head, Permutation_app_comm.
      + intros k Hk. destruct (ui_M0 k Hk) as (k' & v & A & B). exists k', v. split; [|exact B].
        rewrite !in_app_iff in *. tauto.
      + split; [intros k Hk; eapply held_calm; eauto|]. intros k v Hk. apply in_app_iff in Hk as [Hk|[[= <- <-]|[]]]; [eapply held_calm; eauto|exact H1]. }
  unfold uturn. rewrite Eo, Ek, Ev, ui_klen0, ui_olen0.
  destruct (u_in u =? length N) eqn:E1; [apply Nat.eqb_eq in E1|apply Nat.eqb_neq in E1;
    destruct (nth_error N (u_in u)) as [[kn vn]|] eqn:En; [|apply nth_error_None in En; lia];
    cbn [option_map fst snd];
    destruct (u_io u =? length O) eqn:E2; [apply Nat.eqb_eq in E2|apply Nat.eqb_neq in E2;
      destruct (nth_error O (u_io u)) as [ko|] eqn:Eko; [|apply nth_error_None in Eko; lia];
      destruct (e_cmp e d ko kn) eqn:Ec]].
  - (* no new key is left *)
    destruct (nth_error O (u_io u)) as [ko|] eqn:Eko; [|apply nth_error_None in Eko; lia]. revert r. clear Put.
    assert (Ho : u_io u < length O) by lia.
    destruct (point_lock e s d fl ko) as [s1 [x|]] eqn:El; apply point_lock_spec in El as (C & H & X); intros r.
    { intros [= <- <-]. split; [exact C|]. rewrite (X x eq_refl). discriminate. }
    destruct (swap_if_spec (u_iou u) (u_io u) (u_old u) ko io2) as (old & -> & K1 & K2 & K3); [rewrite Eo; reflexivity|].
    intros [= <- <-]. split; [exact C|].
    exists (D ++ [ko]), M, P, S. split; [constructor; cbn [u_old u_nk u_nv u_io u_in u_iou u_inu u_skip u_del u_put]|split; [|cbn [u_io u_in]; lia]].
    all: rewrite ?map_app, ?app_length; cbn [map fst snd length]; try (auto; lia).
    + rewrite K2, ui_D0. reflexivity.
    + rewrite K3. apply skipn_S, ui_orest0.
    + rewrite (firstn_S _ _ _ Eko), <- app_assoc. eapply perm_trans; [apply Permutation_app_tail, ui_operm0|]. rewrite <- app_assoc.
      apply Permutation_app_head, Permutation_app_comm.
    + split; [|intros k v Hk; eapply held_calm; eauto]. intros k Hk. apply in_app_iff in Hk as [Hk|[<-|[]]]; [eapply held_calm; eauto|exact (H eq_refl)].
  - (* no old key is left *)
    destruct (check_overwrite e s d fl kn) as [s1 [x|]] eqn:Ec; apply check_overwrite_spec in Ec as (C & B & H & F).
    { intros [= <- <-]. split; [exact C|]. congruence. }
    intros Q. destruct (f_rest fl) eqn:Ef.
    3: { injection Q as <- <-. split; [exact C|discriminate]. }
    1,3,4: exact (Put _ _ _ false false _ _ eq_refl C ltac:(discriminate) ltac:(discriminate) Q).
    exact (Put _ _ _ true false _ _ eq_refl C ltac:(intros _; apply (H eq_refl eq_refl)) ltac:(discriminate) Q).
  - (* equal keys *)
    intros Q. destruct ((0 <? len vn)%N || negb (same_bytes ko kn)) eqn:Eb.
    { exact (Put _ _ _ false true _ _ eq_refl (calm_refl s) ltac:(discriminate) ltac:(intros _; exists ko; split; [reflexivity|exact Ec]) Q). }
    injection Q as <- <-. split; [apply calm_refl|]. apply orb_false_iff in Eb as [B1 B2].
    apply negb_false_iff, same_bytes_eq in B2. subst ko. apply N.ltb_ge in B1. assert (vn = []) as -> by (destruct vn; [reflexivity|cbv [len] in B1; cbn [length] in B1; lia]).
    exists D, (M ++ [kn]), P, (S ++ [(kn, [])]). split; [constructor; cbn [u_old u_nk u_nv u_io u_in u_iou u_inu u_skip u_del u_put]|split; [|cbn [u_io u_in]; lia]].
    all: rewrite ?map_app, ?app_length; cbn [map fst snd length]; try (auto; lia).
    + apply skipn_S, ui_orest0.
    + apply skipn_S, ui_krest0.
    + apply skipn_S, ui_vrest0.
    + rewrite (firstn_S _ _ _ Eko), app_assoc. apply Permutation_app_tail, ui_operm0.
    + rewrite (firstn_S _ _ _ En), app_assoc. apply Permutation_app_tail, ui_nperm0.
    + intros k Hk. apply in_app_iff in Hk as [Hk|[<-|[]]].
      * destruct (ui_M0 k Hk) as (k' & v & A & B). exists k', v. split; [|exact B].
        rewrite !in_app_iff in *. tauto.
      * exists kn, []. split; [rewrite !in_app_iff; cbn; tauto|exact Ec].
    + intros k v Hk. apply in_app_iff in Hk as [Hk|[[= <- <-]|[]]].
      * destruct (ui_S0 k v Hk). split; [assumption|]. apply in_app_iff; tauto.
      * split; [reflexivity|]. apply in_app_iff; cbn; tauto.
    + split; assumption.
  - (* the old key comes first *)
    revert r. clear Put.
    assert (Ho : u_io u < length O) by lia.
    destruct (point_lock e s d fl ko) as [s1 [x|]] eqn:El; apply point_lock_spec in El as (C & H & X); intros r.
    { intros [= <- <-]. split; [exact C|]. rewrite (X x eq_refl). discriminate. }
    destruct (swap_if_spec (u_iou u) (u_io u) (u_old u) ko io2) as (old & -> & K1 & K2 & K3); [rewrite Eo; reflexivity|].
    intros [= <- <-]. split; [exact C|].
    exists (D ++ [ko]), M, P, S. split; [constructor; cbn [u_old u_nk u_nv u_io u_in u_iou u_inu u_skip u_del u_put]|split; [|cbn [u_io u_in]; lia]].
    all: rewrite ?map_app, ?app_length; cbn [map fst snd length]; try (auto; lia).
    + rewrite K2, ui_D0. reflexivity.
    + rewrite K3. apply skipn_S, ui_orest0.
    + rewrite (firstn_S _ _ _ Eko), <- app_assoc. eapply perm_trans; [apply Permutation_app_tail, ui_operm0|]. rewrite <- app_assoc.
      apply Permutation_app_head, Permutation_app_comm.
    + split; [|intros k v Hk; eapply held_calm; eauto]. intros k Hk. apply in_app_iff in Hk as [Hk|[<-|[]]]; [eapply held_calm; eauto|exact (H eq_refl)].
  - (* the new key comes first *)
    clear Ec. destruct (check_overwrite e s d fl kn) as [s1 [x|]] eqn:Ec; apply check_overwrite_spec in Ec as (C & B & H & F).
    { intros [= <- <-]. split; [exact C|]. congruence. }
    intros Q. destruct (f_rest fl) eqn:Ef.
    3: { injection Q as <- <-. split; [exact C|discriminate]. }
    1,3,4: exact (Put _ _ _ false false _ _ eq_refl C ltac:(discriminate) ltac:(discriminate) Q).
    exact (Put _ _ _ true false _ _ eq_refl C ltac:(intros _; apply (H eq_refl eq_refl)) ltac:(discriminate) Q).
Qed.

Lemma uloop_spec n : forall s D M P S u s' r,
  uinv D M P S u -> uheld s D P -> length O + length N <= n + (u_io u + u_in u) -> uloop e n s d fl u = (s', r) ->
  calm s s' /\
  match r with
  | inl x => x <> EBug
  | inr u' => exists D' M' P' S', uinv D' M' P' S' u' /\ uheld s' D' P' /\ u_io u' = length O /\ u_in u' = length N
  end.
Proof.
  induction n as [|n IH]; intros s D M P S u s' r I H Hn; pose proof I as I0; destruct I; cbn [uloop]; rewrite ui_olen0, ui_klen0;
    destruct ((u_io u <? length O) || (u_in u <? length N)) eqn:E.
  1: { apply orb_true_iff in E. rewrite !Nat.ltb_lt in E. lia. }
  2: { apply orb_true_iff in E. rewrite !Nat.ltb_lt in E.
       destruct (uturn e s d fl u) as [s1 r1] eqn:Et. apply (uturn_spec _ _ _ _ _ _ _ _ I0 H E) in Et as (C & Et).
       destruct r1 as [x|u1]; [intros [= <- <-]; split; assumption|].
       destruct Et as (D1 & M1 & P1 & S1 & I1 & H1 & L). intros Q. eapply IH in Q; [|exact I1|exact H1|lia].
       destruct Q as (C2 & Q). split; [eapply calm_trans; eauto|exact Q]. }
  all: apply orb_false_iff in E; rewrite !Nat.ltb_ge in E; intros [= <- <-]; (split; [apply calm_refl|]); exists D, M, P, S; (split; [exact I0|]); (split; [exact H|]); lia.
Qed.

(** What is left to do for the dictionary, in terms of its old keys and new rows. *)
Record squished (D M : list bytes) (P S : list (bytes * bytes)) : Prop := mkSq {
  sq_old : Permutation O (D ++ M);
  sq_new : Permutation N (P ++ S);
  sq_M : forall k, In k M -> exists k' v, In (k', v) N /\ keq (e_cmp e d) k k';
  sq_S : forall k v, In (k, v) S -> v = [] /\ In k M
}.

Lemma uloop_squished s s' r :
  uloop e (length O + length N) s d fl (mkU O (map fst N) (map snd N) 0 0 0 0 0 0 0) = (s', r) ->
  calm s s' /\
  match r with
  | inl x => x <> EBug
  | inr u => exists D M P S, squished D M P S /\ uheld s' D P /\
      uleft d u = (match D with [] => [] | _ => [(d, D)] end,
                   match P, D, S with
                   | [], [], _ => [] | [], _, [] => []
                   | _, _, _ => [(d, P, FNone)]
                   end)
  end.
Proof.
  intros Q. eapply (uloop_spec _ _ [] [] [] []) in Q.
  - destruct Q as (C & Q). split; [exact C|]. destruct r as [x|u]; [exact Q|].
    destruct Q as (D & M & P & S & I & H & E1 & E2). exists D, M, P, S. destruct I.
    rewrite E1, firstn_all in ui_operm0. rewrite E2, firstn_all in ui_nperm0. repeat split; try assumption; try apply H.
    + intros k Hk. destruct (ui_M0 k Hk) as (k' & v & A & B). exists k', v. split; [|exact B].
      eapply Permutation_in; [symmetry; exact ui_nperm0|exact A].
    + eapply ui_S0; eassumption.
    + eapply ui_S0; eassumption.
    + unfold uleft. destruct ui_nums0 as (-> & -> & ->). rewrite ui_D0, ui_Pk0, ui_Pv0.
      replace (combine (map fst P) (map snd P)) with P
        by (clear; induction P as [|[a b] P IH]; [reflexivity|]; cbn [map combine fst snd]; f_equal; exact IH).
      destruct P, D, S; reflexivity.
  - constructor; cbn [u_old u_nk u_nv u_io u_in u_iou u_inu u_skip u_del u_put]; rewrite ?map_length; auto using Nat.le_0_l;
      try (cbn; split; reflexivity); try (cbn; apply perm_nil); try (intros k HF; exfalso; exact HF); try (intros k v HF; exfalso; exact HF).
  - split; [intros k HF|intros k v HF]; exfalso; exact HF.
  - cbn [u_io u_in]. lia.
Qed.
End U.
