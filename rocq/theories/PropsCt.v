(** * C36: a checkpoint writes the state as of its begin *)
From Coq Require Import List Bool NArith Lia.
From Verif Require Import Base CtModel CtSpec CtProofs CtInv CtImg CtCut CtPend.
Import ListNotations.
Local Open Scope N_scope.

Section S.
Variable V : Type.
Notation cst := (cst V).

Lemma inv_init : forall d : ckey -> option V, Inv (cinit d).
Proof.
  intros d. constructor; cbn.
  - intros k. split; [tauto|congruence].
  - intros t k. congruence.
  - intros t todo [= <-]. constructor.
  - intros t k fc. discriminate.
  - intros k p. discriminate.
Qed.

Lemma runs_inv : forall (s : cst) os s', runs s os s' -> Inv s -> Inv s'.
Proof. induction 1; auto. intros HI. apply IHruns. eapply step_inv; eauto. Qed.

Lemma cruns_runs : forall X (L : (ckey -> option V) -> X) (s : cst) os s', cruns_ok L s os s' -> runs s os s'.
Proof. induction 1; econstructor; eauto. Qed.

(** A whole checkpoint: [s0] is any state the cachetable can get into, the
    checkpoint begins there, any steps [os] of any threads follow, it ends. *)
Record ckpt_run (d : ckey -> option V) (s0 : cst) (os : list (cop V)) (s1 s2 s3 : cst) : Prop := {
  cr_reach : exists os0, runs (cinit d) os0 s0;
  cr_begin : cstep s0 OBegin = Some s1;
  cr_run : runs s1 os s2;
  cr_noend : ~ In OEnd os;
  cr_end : cstep s2 OEnd = Some s3 }.

(** ** Pages no thread had pinned for writing when the checkpoint began

    The completed checkpoint has exactly the content the page had at begin
    (in memory, possibly never written before; or on disk), whatever was done to
    the page since: changed, evicted, fetched again, removed, its number used
    again for a new page.  No contract is asked of any thread.
    Missing for the whole statement: pages a background thread had pinned when
    the checkpoint began (next theorem). *)
Theorem C36_unpinned_page_partial : forall d s0 os s1 s2 s3, ckpt_run d s0 os s1 s2 s3 ->
  forall k, (forall t, ~ pinned_by_client s0 t k) -> c_last s3 k = content s0 k.
Proof.
  intros d s0 os s1 s2 s3 [(os0 & R0) B R NE E] k NP.
  assert (I0 : Inv s0) by (eapply runs_inv; [exact R0|apply inv_init]).
  destruct (begin_img V s0 s1 k I0 B) as (RN & IM).
  assert (I1 : Inv s1) by (eapply step_inv; eauto).
  assert (P1 : ~ pp s1 k).
  { intros (t & (p & P1 & P2 & P3) & _). cbn [cstep] in B.
    destruct (c_ck s0); [discriminate|]. destruct (c_users s0); [|discriminate]. destruct (c_exps s0) eqn:EX; [|discriminate].
    injection B as <-. cbn in *. destruct (c_tab s0 k) as [q|] eqn:T; [|discriminate]. cbn in P1. injection P1 as <-. cbn in P2.
    apply (NP t). split; [exists q; auto|].
    repeat split; intros; intros TH; rewrite TH in P3; cbn in P3; rewrite N.eqb_refl in P3; destruct P3; discriminate. }
  rewrite (end_img V s2 s3 k); [|eapply runs_inv; eauto|exact E]. rewrite <- IM. clear IM B E R0 NP I0.
  revert I1 RN P1 NE. induction R as [s|s o s' os s'' ST R IH]; intros HI RN P1 NE; [reflexivity|].
  assert (NO : o <> OEnd) by (intros ->; apply NE; left; reflexivity).
  assert (NB : o <> OBegin).
  { intros ->. cbn [cstep] in ST. destruct (c_ck s); [discriminate|discriminate RN]. }
  destruct (step_img V s s' o k HI RN ST NO) as (RN' & IM).
  rewrite IH; auto.
  - rewrite IM.
    assert (NPK : forall t, c_thr s t = TRun [] -> pinned s t k -> pend s k = false).
    { intros t TH PN. destruct (pend s k) eqn:PK; [|reflexivity]. exfalso. apply P1. exists t. split; [|exact PK]. apply pinned_res; assumption. }
    destruct o as [t|t|t y|t deps|t y deps|t y|t cl|t us|t y|t y v deps|t y|t y t'|t y|t|t|t rm| |y cl|y|]; try reflexivity.
    + destruct (lastv us k) as [v|] eqn:LV; [|reflexivity]. cbn [cstep] in ST.
      destruct (is_idle (c_thr s t)) eqn:ID; [|discriminate]. apply idle_run in ID. apply modify_spec in ST.
      destruct ST as (_ & _ & _ & _ & _ & _ & _ & _ & _ & C10). destruct (C10 k v LV) as (p & w & Q1 & Q2 & _).
      rewrite (NPK t ID); [reflexivity|]. exists p. auto.
    + destruct (N.eqb_spec k y) as [->|NY]; [|reflexivity]. cbn [cstep] in ST.
      destruct (is_idle (c_thr s t)) eqn:ID; [|discriminate]. apply idle_run in ID.
      destruct (c_tab s y) as [p|] eqn:T; [|discriminate]. destruct (owns p t) eqn:OW; [|discriminate].
      apply owns_true in OW. rewrite (NPK t ID); [reflexivity|]. exists p. auto.
  - eapply step_inv; eauto.
  - intros Q. apply P1. eapply step_pp; eauto.
  - intros Q. apply NE. right. exact Q.
Qed.

(** In particular nothing any client does after the begin shows: if no thread
    had a page pinned at begin, the checkpoint is the state at begin. *)
Theorem C36_quiet_begin : forall d s0 os s1 s2 s3, ckpt_run d s0 os s1 s2 s3 ->
  (forall t k, ~ pinned_by_client s0 t k) -> forall k, c_last s3 k = content s0 k.
Proof. intros. eapply C36_unpinned_page_partial; eauto. Qed.

(** ** The consistent cut

    [L] is any meaning of the whole set of pages.  If background threads only
    change the pages they have pinned in ways that keep [L] and pass all of them
    as dependent pairs ([contract]), while user operations do what they like
    after the begin (they cannot be in progress at begin: the multi-operation
    lock), then the completed checkpoint means what the pages meant at begin. *)
Theorem C36_consistent_cut : forall X (L : (ckey -> option V) -> X),
  (forall m m', (forall k, m k = m' k) -> L m = L m') ->
  forall d s0 os s1 s2 s3, ckpt_run d s0 os s1 s2 s3 -> cruns_ok L s1 os s2 ->
  L (c_last s3) = L (content s0).
Proof.
  intros X L LX d s0 os s1 s2 s3 [(os0 & R0) B R NE E] CR.
  assert (I0 : Inv s0) by (eapply runs_inv; [exact R0|apply inv_init]).
  assert (I1 : Inv s1) by (eapply step_inv; eauto).
  assert (H1 : Hom s1) by (eapply begin_hom; eauto).
  assert (I2 : Inv s2) by (eapply runs_inv; eauto).
  transitivity (L (img s2)). { apply LX. intros k. eapply end_img; eauto. }
  transitivity (L (img s1)). 2: { apply LX. intros k. apply (begin_img V s0 s1 k I0 B). }
  assert (RN := proj1 (begin_img V s0 s1 0 I0 B)).
  clear I2 R E B R0 I0. revert I1 H1 RN NE. induction CR as [s|s o s' os s'' CT ST R IH]; intros HI HH RN NE; [reflexivity|].
  assert (NO : o <> OEnd) by (intros ->; apply NE; left; reflexivity).
  assert (NB : o <> OBegin).
  { intros ->. cbn [cstep] in ST. destruct (c_ck s); [discriminate|discriminate RN]. }
  rewrite IH.
  - eapply step_cut; eauto.
  - eapply step_inv; eauto.
  - eapply step_hom; eauto.
  - exact (proj1 (step_img V s s' o 0 HI RN ST NO)).
  - intros Q. apply NE. right. exact Q.
Qed.

Lemma list_cached : forall d os (s : cst), runs (cinit d) os s -> forall l k, c_ck s = Some l -> In k l -> c_tab s k <> None.
Proof.
  assert (G : forall (s : cst) os s', runs s os s' -> Inv s -> (forall l k, c_ck s = Some l -> In k l -> c_tab s k <> None) ->
     (forall l k, c_ck s' = Some l -> In k l -> c_tab s' k <> None)).
  { induction 1 as [s|s o s' os s'' ST R IH]; auto. intros HI A. apply IH; [eapply step_inv; eauto|]. clear IH R.
    assert (FU : forall k (p : CtModel.pair V) x, c_tab s x <> None -> fupd (c_tab s) k (Some p) x <> None).
    { intros k p x. unfold fupd. destruct (x =? k); congruence. }
    assert (CB : forall (s2 s3 : cst) t ks todo, clear_bits s2 t ks = Some (s3, todo) -> c_ck s3 = c_ck s2 /\ forall x, c_tab s2 x <> None -> c_tab s3 x <> None).
    { intros s2 s3 t ks todo C. apply clear_bits_spec in C. destruct C as (_ & _ & _ & _ & C5 & _ & _ & _ & C9 & _). split; [exact C5|].
      intros x. rewrite C9. destruct (mem x ks); [|auto]. destruct (c_tab s2 x); cbn; congruence. }
    intros l x CK IN. assert (NB : o = OBegin \/ o <> OBegin) by (destruct o; auto; right; discriminate).
    destruct o as [t|t|t k|t deps|t k deps|t k|t cl|t us|t k|t k v deps|t k|t k t'|t k|t|t|t rm| |k cl|k|];
      cbn [cstep] in ST;
      repeat match type of ST with
      | (if ?b then _ else None) = Some _ => destruct b eqn:?; [|discriminate ST]
      | match ?b with Some _ => _ | None => None end = Some _ => destruct b eqn:?; [|discriminate ST]
      end; try (injection ST as <-; cbn in *; eauto; fail).
    - destruct (c_thr s t); try discriminate. destruct (clear_bits s t (k :: deps)) as [[s1 todo]|] eqn:C; [|discriminate].
      injection ST as <-. destruct (CB _ _ _ _ _ C) as (C1 & C2). cbn in *. apply C2. eapply A; eauto. congruence.
    - destruct p as [s1 todo]. injection ST as <-. destruct (CB _ _ _ _ _ Heqo) as (C1 & C2). cbn in *. apply C2. cbn. apply FU. eapply A; eauto. congruence.
    - destruct (p_val p); [discriminate|]. destruct (c_cur s k); [|discriminate]. injection ST as <-. cbn in *. apply FU. eauto.
    - destruct (c_thr s t) as [[|k todo]| | |]; try discriminate. destruct (c_tab s k) as [p|] eqn:T; [|discriminate].
      destruct (write_for_checkpoint s k p cl) as [s1|] eqn:W; [|discriminate]. injection ST as <-.
      destruct (wfc_sound _ _ _ _ _ _ W T) as (W1 & W2 & W3 & W4 & W5 & W6 & W7 & p' & W8 & _). cbn in *.
      destruct (N.eq_dec x k) as [->|NX]; [congruence|]. rewrite (proj1 (W7 x NX)). eapply A; eauto. congruence.
    - apply modify_spec in ST. destruct ST as (_ & _ & _ & _ & C5 & _ & _ & _ & C9 & _). rewrite C9. rewrite C5 in CK.
      assert (Q := A l x CK IN). destruct (lastv us x); [|exact Q]. destruct (c_tab s x); cbn; congruence.
    - destruct p as [s1 todo]. injection ST as <-. destruct (CB _ _ _ _ _ Heqo) as (C1 & C2). cbn in *. apply C2. cbn. apply FU. eapply A; eauto. congruence.
    - injection ST as <-. cbn in *. destruct (c_ck s) as [l0|] eqn:CK0; [|discriminate]. cbn in CK. injection CK as <-.
      apply del_In in IN as [IN NX]. rewrite fupd_other by exact NX. eauto.
    - destruct (c_thr s t) as [| |k|]; try discriminate. destruct (c_tab s k); [|discriminate]. injection ST as <-. cbn in *. apply FU. eauto.
    - destruct (c_thr s t) as [| | |k fc]; try discriminate. destruct (c_tab s k) as [p|] eqn:T; [|discriminate]. destruct (p_dirty p) eqn:D; [|discriminate].
      unfold write_locked_pair in ST. destruct (p_clone p); [discriminate|]. rewrite D in ST. destruct (p_val p); [|discriminate].
      injection ST as <-. cbn in *. apply FU. eauto.
    - assert (EV : exists k (p : CtModel.pair V), c_tab s k = Some p /\
          c_tab s' = c_tab (if rm then rem_pair s k else set_pair s k (with_lock p None)) /\
          c_ck s' = c_ck (if rm then rem_pair s k else set_pair s k (with_lock p None))).
      { destruct (c_thr s t) as [| |k|k fc]; try discriminate; (destruct (c_tab s k) as [p|] eqn:T; [|discriminate]);
          (destruct (negb (p_dirty p)); [|discriminate]); (destruct (p_clone p); [discriminate|]); injection ST as <-; exists k, p; auto. }
      destruct EV as (k & p & T & E1 & E2). rewrite E1. rewrite E2 in CK. destruct rm; cbn in *; [|apply FU; eauto].
      destruct (c_ck s) as [l0|] eqn:CK0; [|discriminate]. cbn in CK. injection CK as <-.
      apply del_In in IN as [IN NX]. rewrite fupd_other by exact NX. eauto.
    - injection ST as <-. cbn in *. injection CK as <-. apply (I_keys s HI) in IN. destruct (c_tab s x); cbn; congruence.
    - injection ST as <-. cbn in *. injection CK as <-. apply del_In in IN as [IN NX]. rewrite fupd_other by exact NX.
      assert (Q : c_tab s x <> None) by (eapply A; eauto).
      destruct (p_pend p); [|injection Heqo1 as <-; exact Q].
      destruct (wfc_sound _ _ _ _ _ _ Heqo1 Heqo0) as (W1 & W2 & W3 & W4 & W5 & W6 & W7 & _). rewrite (proj1 (W7 x NX)). exact Q.
    - injection ST as <-. discriminate. }
  intros d os s R. eapply G; [exact R|apply inv_init|]. cbn. discriminate.
Qed.

(** A step of the checkpoint thread or of a writer of clones. *)
Definition ck_op (o : cop V) : Prop := match o with OCkPair _ _ | OClone _ => True | _ => False end.

Lemma runs_app : forall (s1 : cst) os1 s2 os2 s3, runs s1 os1 s2 -> runs s2 os2 s3 -> runs s1 (os1 ++ os2) s3.
Proof. induction 1; cbn; intros; [assumption|]. econstructor; eauto. Qed.

Lemma clones_done : forall ks (s : cst), Inv s -> c_ck s = Some [] ->
  (forall k p, c_tab s k = Some p -> p_clone p <> None -> In k ks) ->
  exists os s', runs s os s' /\ Forall ck_op os /\ c_ck s' = Some [] /\ no_clones s' = true.
Proof.
  induction ks as [|k ks IH]; intros s HI CK A.
  - exists [], s. repeat split; try constructor; auto. apply forallb_forall. intros k _.
    destruct (c_tab s k) as [p|] eqn:T; [|reflexivity]. destruct (p_clone p) eqn:CL; [|reflexivity].
    destruct (A k p T). congruence.
  - destruct (c_tab s k) as [p|] eqn:T.
    + destruct (p_clone p) as [w|] eqn:CL.
      * assert (ST : cstep s (OClone k) = Some (set_pair (disk_put s k (Some w) true) k (mkPair (p_val p) (p_dirty p) (p_nd p) (p_pend p) (p_lock p) None))).
        { cbn. rewrite T, CL. reflexivity. }
        destruct (IH _ (step_inv V _ _ _ HI ST) CK) as (os & s' & R & F & C1 & C2).
        { intros x q. cbn. unfold fupd. destruct (N.eqb_spec x k) as [->|NX].
          - intros [= <-]. cbn. congruence.
          - intros Q1 Q2. destruct (A x q Q1 Q2) as [E|I1]; [congruence|exact I1]. }
        exists (OClone k :: os), s'. repeat split; auto; econstructor; cbn; eauto.
      * apply IH; auto. intros x q Q1 Q2. destruct (A x q Q1 Q2) as [E|I1]; [subst x; congruence|exact I1].
    + apply IH; auto. intros x q Q1 Q2. destruct (A x q Q1 Q2) as [E|I1]; [subst x; congruence|exact I1].
Qed.

Lemma del_shorter : forall k l, In k l -> (length (del k l) < length l)%nat.
Proof.
  induction l as [|a l IH]; cbn; [tauto|]. intros [->|I1].
  - rewrite N.eqb_refl. cbn. assert (H : forall l' : list N, (length (filter (fun x => negb (x =? k)%N) l') <= length l')%nat).
    { induction l' as [|b l' IH']; cbn; [lia|]. destruct (negb (b =? k)); cbn; lia. }
    specialize (H l). lia.
  - specialize (IH I1). unfold del in IH. destruct (negb (a =? k)); cbn; lia.
Qed.

Lemma pairs_done : forall n l (s : cst), (length l <= n)%nat -> Inv s -> c_ck s = Some l ->
  (forall k, In k l -> c_tab s k <> None) -> (forall k p, c_tab s k = Some p -> p_lock p = None) ->
  exists os s', runs s os s' /\ Forall ck_op os /\ c_ck s' = Some [].
Proof.
  induction n as [|n IH]; intros l s LN HI CK A NL; (destruct l as [|k l]; [exists [], s; repeat split; auto; constructor|]); [cbn in LN; lia|].
  destruct (c_tab s k) as [p|] eqn:T; [|destruct (A k); cbn; auto].
  assert (LK := NL k p T). assert (HK := Kat_get_un V s k p HI T LK).
  assert (ST : exists s1, cstep s (OCkPair k false) = Some s1 /\ c_ck s1 = Some (del k (k :: l)) /\
     forall x, match c_tab s1 x with Some q => exists q0, c_tab s x = Some q0 /\ p_lock q = p_lock q0 | None => c_tab s x = None end).
  { destruct HK as (K1 & K2 & K3 & K4 & K5 & K6 & K7 & K8 & K9).
    cbn [cstep]. rewrite CK. cbn [mem existsb]. rewrite N.eqb_refl. cbn [orb]. rewrite T, LK.
    destruct (p_pend p) eqn:PP.
    - unfold write_for_checkpoint, write_locked_pair. destruct (p_dirty p) eqn:D.
      + destruct (p_clone p) eqn:CL; [destruct K6 as (_ & ? & _); [discriminate|congruence]|].
        destruct (p_val p) as [v|] eqn:PV; [|destruct (K1 eq_refl); congruence].
        cbn. rewrite fupd_same. eexists. split; [reflexivity|]. split; [reflexivity|]. intros x. cbn. unfold fupd.
        destruct (N.eqb_spec x k) as [->|]; [exists p; auto|]. destruct (c_tab s x) as [q|]; eauto.
      + rewrite T. eexists. split; [reflexivity|]. split; [reflexivity|]. intros x. cbn. unfold fupd.
        destruct (N.eqb_spec x k) as [->|]; [exists p; auto|]. destruct (c_tab s x) as [q|]; eauto.
    - rewrite T. eexists. split; [reflexivity|]. split; [reflexivity|]. intros x. cbn. unfold fupd.
      destruct (N.eqb_spec x k) as [->|]; [exists p; auto|]. destruct (c_tab s x) as [q|]; eauto. }
  destruct ST as (s1 & ST & CK1 & TB).
  destruct (IH (del k (k :: l)) s1) as (os & s' & R & F & C1); auto.
  - assert (Q := del_shorter k (k :: l) (or_introl eq_refl)). apply PeanoNat.Nat.lt_succ_r. eapply PeanoNat.Nat.lt_le_trans; [exact Q|exact LN].
  - eapply step_inv; eauto.
  - intros x I1. apply del_In in I1 as [I1 _]. assert (Q := A x I1). specialize (TB x). destruct (c_tab s1 x); congruence.
  - intros x q Q1. specialize (TB x). rewrite Q1 in TB. destruct TB as (q0 & B1 & B2). rewrite B2. eauto.
  - exists (OCkPair k false :: os), s'. repeat split; auto; econstructor; cbn; eauto.
Qed.

(** ** The checkpoint can finish: once no page is pinned, steps of the checkpoint
    thread and of the writers of clones lead to its end. *)
Theorem C36_can_finish : forall d os0 (s : cst), runs (cinit d) os0 s -> c_ck s <> None ->
  (forall t k, ~ pinned s t k) ->
  exists os s' s'', runs s os s' /\ Forall ck_op os /\ cstep s' OEnd = Some s''.
Proof.
  intros d os0 s R CK NP. destruct (c_ck s) as [l|] eqn:EC; [|congruence].
  assert (HI : Inv s) by (eapply runs_inv; [exact R|apply inv_init]).
  destruct (pairs_done (length l) l s (le_n _) HI EC) as (os1 & s1 & R1 & F1 & C1).
  - intros k. eapply list_cached; eauto.
  - intros k p T. destruct (p_lock p) as [t|] eqn:LK; [|reflexivity]. destruct (NP t k). exists p. auto.
  - assert (I1 : Inv s1) by (eapply runs_inv; eauto).
    destruct (clones_done (c_keys s1) s1 I1 C1) as (os2 & s2 & R2 & F2 & C2 & N2).
    { intros k p T _. apply (I_keys s1 I1). congruence. }
    exists (os1 ++ os2), s2. eexists. split; [eapply runs_app; eauto|]. split; [apply Forall_app; auto|].
    cbn [cstep]. rewrite C2, N2. reflexivity.
Qed.
End S.
Arguments ckpt_run {V}.

(** ** A concrete run: pages 1, 2, 3 hold numbers; the meaning is the sum of 1 and
    2, which the flusher (thread 7) keeps while it moves an amount between them
    around the begin; the user (thread 8) has changed page 3 in memory before the
    begin and changes it and page 1 after. *)
Definition sum12 (m : ckey -> option N) : N :=
  (match m 1 with Some a => a | None => 0 end) + (match m 2 with Some a => a | None => 0 end).
Definition disk0 : ckey -> option N := fun k => if k =? 1 then Some 10 else if k =? 2 then Some 20 else if k =? 3 then Some 30 else None.
Definition ex_before : list (cop N) :=
  [OUser 8; OMiss 8 3 []; OFetch 8 3; OMod 8 [(3, 31)]; OUnpin 8 3; OUserEnd 8;
   OMiss 7 1 []; OFetch 7 1; OMiss 7 2 [1]; OFetch 7 2].
Definition ex_during : list (cop N) :=
  [OUser 8; OLock 8 3; OResolve 8 []; OWrite 8 true; OMod 8 [(3, 99)];
   OMod 7 [(1, 4); (2, 26)]; OUnpin 7 1; OLock 8 1; OResolve 8 [3]; OWrite 8 false; OMod 8 [(1, 77)];
   OClone 3; OUnpin 8 1; OUnpin 8 3; OUserEnd 8; OUnpin 7 2;
   OEvLock 9 3; OEvStart 9; OEvWrite 9; OEvFree 9 true;
   OEvLock 9 2; OEvStart 9; OEvWrite 9; OEvFree 9 true; OCkPair 1 true].

Lemma cruns_sound : forall V os (s s' : cst V), cruns s os = Some s' -> runs s os s'.
Proof.
  induction os as [|o os IH]; cbn; intros s s' E; [injection E as <-; constructor|].
  destruct (cstep s o) as [s1|] eqn:ST; [|discriminate]. econstructor; eauto.
Qed.

(** In this run the contract is kept: only the user operation resolves or
    changes, except for the one move of the flusher. *)
Definition ex_ok (s : cst N) (o : cop N) : Prop :=
  match o with
  | OMod t us => In t (c_users s) \/
      (us = [(1, 4); (2, 26)] /\ match c_tab s 1, c_tab s 2 with
        | Some p, Some q => p_lock p = Some t /\ p_val p = Some 10 /\ p_lock q = Some t /\ p_val q = Some 20 | _, _ => False end)
  | ORemove t _ | OResolve t _ | OMiss t _ _ | OPut t _ _ _ => In t (c_users s)
  | _ => True
  end.
Fixpoint ex_oks (s : cst N) (os : list (cop N)) : Prop :=
  match os with
  | [] => True
  | o :: os' => ex_ok s o /\ match cstep s o with Some s1 => ex_oks s1 os' | None => False end
  end.
Lemma ex_oks_sound : forall os s s', ex_oks s os -> cruns s os = Some s' -> cruns_ok sum12 s os s'.
Proof.
  induction os as [|o os IH]; cbn; intros s s' OK E; [injection E as <-; constructor|]. destruct OK as [O1 O2].
  destruct (cstep s o) as [s1|] eqn:ST; [|discriminate]. econstructor; [|exact ST|apply IH; auto].
  destruct o; cbn in *; auto.
  destruct O1 as [O1|(-> & O1)]; [auto|]. right. intros m AG.
  destruct (c_tab s 1) as [p|] eqn:T1; [|contradiction]. destruct (c_tab s 2) as [q|] eqn:T2; [|contradiction].
  destruct O1 as (P1 & P2 & Q1 & Q2).
  assert (M1 : m 1 = Some 10). { rewrite (AG 1); [|exists p; auto]. unfold content. rewrite T1, P2. reflexivity. }
  assert (M2 : m 2 = Some 20). { rewrite (AG 2); [|exists q; auto]. unfold content. rewrite T2, Q2. reflexivity. }
  unfold sum12. cbn. rewrite M1, M2. reflexivity.
Qed.

Lemma ex_run :
  match cruns (cinit disk0) ex_before with
  | Some s0 =>
      content s0 1 = Some 10 /\ content s0 2 = Some 20 /\ content s0 3 = Some 31 /\
      match c_tab s0 1 with Some p => p_lock p = Some 7 | None => False end /\ c_thr s0 7 = TRun [] /\
      match c_tab s0 3 with Some p => p_lock p = None | None => False end /\
      match cstep s0 OBegin with
      | Some s1 =>
          ex_oks s1 ex_during /\
          match cruns s1 ex_during with
          | Some s2 =>
              match cstep s2 OEnd with
              | Some s3 => c_last s3 1 = Some 4 /\ c_last s3 2 = Some 26 /\ c_last s3 3 = Some 31 /\
                           content s3 1 = Some 77 /\ content s3 3 = Some 99
              | None => False
              end
          | None => False
          end
      | None => False
      end
  | None => False
  end.
Proof. vm_compute. repeat split; auto. right; repeat split. Qed.

Example C36_example : exists s0 s1 s2 s3,
  ckpt_run disk0 s0 ex_during s1 s2 s3 /\ cruns_ok sum12 s1 ex_during s2 /\
  content s0 1 = Some 10 /\ content s0 2 = Some 20 /\ content s0 3 = Some 31 /\
  c_last s3 1 = Some 4 /\ c_last s3 2 = Some 26 /\ c_last s3 3 = Some 31 /\
  content s3 1 = Some 77 /\ content s3 3 = Some 99 /\
  pinned_by_client s0 7 1 /\ (forall t, ~ pinned_by_client s0 t 3).
Proof.
  assert (H := ex_run).
  destruct (cruns (cinit disk0) ex_before) as [s0|] eqn:R0; [|contradiction].
  destruct H as (A1 & A2 & A3 & A4 & A5 & A6 & H).
  destruct (cstep s0 OBegin) as [s1|] eqn:B; [|contradiction]. destruct H as (OK & H).
  destruct (cruns s1 ex_during) as [s2|] eqn:R1; [|contradiction].
  destruct (cstep s2 OEnd) as [s3|] eqn:E; [|contradiction]. destruct H as (B1 & B2 & B3 & B4 & B5).
  exists s0, s1, s2, s3. split; [|split; [apply ex_oks_sound; assumption|]].
  - constructor; auto.
    + exists ex_before. apply cruns_sound. exact R0.
    + apply cruns_sound. exact R1.
    + cbn. intuition discriminate.
  - repeat (split; [assumption|]). split.
    + destruct (c_tab s0 1) as [p|] eqn:T; [|contradiction]. split; [exists p; auto|]. rewrite A5. repeat split; intros; discriminate.
    + intros t ((p & P1 & P2) & _). rewrite P1 in A6. congruence.
Qed.

(** ** The statement as worded is not true of pages pinned by a background thread

    Page 1 of the run above: pinned by the flusher at begin, it is captured with
    the content the flusher gave it afterwards. *)
Theorem C36_pinned_page_refuted : exists d s0 os s1 s2 s3 k,
  ckpt_run d s0 os s1 s2 s3 /\ cruns_ok sum12 s1 os s2 /\ content s0 k <> c_last s3 k.
Proof.
  destruct C36_example as (s0 & s1 & s2 & s3 & R & C & A1 & _ & _ & B1 & _).
  exists disk0, s0, ex_during, s1, s2, s3, 1. repeat split; try assumption; try (destruct R; assumption). rewrite A1, B1. discriminate.
Qed.

Print Assumptions C36_unpinned_page_partial.
Print Assumptions C36_quiet_begin.
Print Assumptions C36_consistent_cut.
Print Assumptions C36_can_finish.
Print Assumptions C36_example.
Print Assumptions C36_pinned_page_refuted.
