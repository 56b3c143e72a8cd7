(** Erasing an aborted transaction from a trace of the specification. *)
From Verif Require Import Base MvccModel MvccSpec.
Open Scope N_scope.

(** The event belongs to root transaction [r] or its children. *)
Definition of_root (r : txnid) (e : revent) : bool :=
  match e with
  | VBegin q | VChild q | VWrite q _ | VChildCommit q | VChildAbort q | VCommit q | VAbort q => q =? r
  | VSnap _ => false
  end.

Definition others (r : txnid) (tr : list revent) : list revent := filter (fun e => negb (of_root r e)) tr.

(** [nest r d mid]: the events [mid], newest first, follow the begin of a child of [r] and never
    leave that child; at the end [d] levels are open, the child's counted. *)
Inductive nest (r : txnid) : nat -> list revent -> Prop :=
| ns_nil : nest r 1 []
| ns_other d e mid : nest r d mid -> of_root r e = false -> nest r d (e :: mid)
| ns_write d w mid : nest r d mid -> nest r d (VWrite r w :: mid)
| ns_child d mid : nest r d mid -> nest r (S d) (VChild r :: mid)
| ns_commit d mid : nest r (S (S d)) mid -> nest r (S d) (VChildCommit r :: mid)
| ns_abort d mid : nest r (S (S d)) mid -> nest r (S d) (VChildAbort r :: mid).

(** Pointwise equality. *)
Definition spec_eq (a b : rspec) : Prop :=
  sp_val a = sp_val b /\ (forall q, sp_levels a q = sp_levels b q) /\ (forall s, sp_frozen a s = sp_frozen b s).

(** The same except for what transaction [r] itself has open. *)
Definition spec_eq_but (r : txnid) (a b : rspec) : Prop :=
  sp_val a = sp_val b /\ (forall q, q <> r -> sp_levels a q = sp_levels b q) /\ (forall s, sp_frozen a s = sp_frozen b s).

Lemma upd_cong {A} (f g : txnid -> A) x a b : (forall q, f q = g q) -> a = b -> forall q, upd f x a q = upd g x b q.
Proof. intros H -> q. unfold upd. destruct (q =? x); auto. Qed.

Lemma spec_eq_step a b e : spec_eq a b -> spec_eq (spec_step a e) (spec_step b e).
Proof.
  intros (Hv & Hl & Hf).
  destruct e; cbn [spec_step]; (split; [|split]); cbn [sp_val sp_levels sp_frozen]; auto;
    try (apply upd_cong; auto; rewrite ?Hl, ?Hv; auto; fail).
  rewrite Hl, Hv. auto.
Qed.

Lemma spec_eq_app a b tr : spec_eq (spec_of a) (spec_of b) -> spec_eq (spec_of (tr ++ a)) (spec_of (tr ++ b)).
Proof. intros H. induction tr as [|e tr IH]; cbn; auto. apply spec_eq_step. auto. Qed.

Lemma upd_but {A} (f g : txnid -> A) r x a b : (forall q, q <> r -> f q = g q) -> (x <> r -> a = b) ->
  forall q, q <> r -> upd f x a q = upd g x b q.
Proof. intros H E q Hq. unfold upd. destruct (N.eqb_spec q x) as [->|]; auto. Qed.

Lemma but_step r a b e : of_root r e = false -> spec_eq_but r a b -> spec_eq_but r (spec_step a e) (spec_step b e).
Proof.
  intros Ho (Hv & Hl & Hf).
  destruct e as [q|q|q w|q|q|q|q|s]; cbn [spec_step]; cbn [of_root] in Ho;
    try (apply N.eqb_neq in Ho); (split; [|split]); cbn [sp_val sp_levels sp_frozen]; auto;
    try (apply upd_but; auto; intros _; rewrite ?Hl, ?Hv by auto; auto; fail).
  - rewrite Hl, Hv by auto. auto.
  - rewrite Hv. apply upd_cong; auto.
Qed.

Lemma but_app r a b tr : (forall e, In e tr -> of_root r e = false) -> spec_eq_but r (spec_of a) (spec_of b) ->
  spec_eq_but r (spec_of (tr ++ a)) (spec_of (tr ++ b)).
Proof.
  intros Ho H. induction tr as [|e tr IH]; cbn; auto. apply but_step; [apply Ho; left; auto|].
  apply IH. intros; apply Ho; right; auto.
Qed.

Lemma upd_same' {A} (f : txnid -> A) x a : upd f x a x = a.
Proof. unfold upd. rewrite N.eqb_refl. auto. Qed.
Lemma upd_other' {A} (f : txnid -> A) x a z : z <> x -> upd f x a z = f z.
Proof. unfold upd. intros H. destruct (N.eqb_spec z x); [tauto|auto]. Qed.

Lemma step_mine r a b e : of_root r e = true -> (forall q, e <> VCommit q) -> spec_eq_but r a b ->
  spec_eq_but r (spec_step a e) b.
Proof.
  intros Ho Hn (Hv & Hl & Hf). destruct e; cbn [of_root] in Ho; try discriminate; apply N.eqb_eq in Ho; subst;
    try (exfalso; eapply Hn; eauto; fail); cbn [spec_step]; (split; [|split]); cbn [sp_val sp_levels sp_frozen]; auto;
    intros q Hq; rewrite upd_other' by auto; auto.
Qed.

Lemma step_others_levels r a e : of_root r e = false -> sp_levels (spec_step a e) r = sp_levels a r.
Proof.
  intros Ho. destruct e; cbn [of_root] in Ho; try (apply N.eqb_neq in Ho); cbn; auto; apply upd_other'; congruence.
Qed.

Lemma nest_levels r d mid pre : nest r d mid ->
  spec_eq_but r (spec_of (mid ++ VChild r :: pre)) (spec_of (others r mid ++ pre))
  /\ sp_levels (spec_of (others r mid ++ pre)) r = sp_levels (spec_of pre) r
  /\ exists X, length X = d /\ sp_levels (spec_of (mid ++ VChild r :: pre)) r = X ++ sp_levels (spec_of pre) r.
Proof.
  induction 1 as [|d e mid H (IH1 & IH2 & X & HX & IH3) Ho|d w mid H (IH1 & IH2 & X & HX & IH3)|d mid H (IH1 & IH2 & X & HX & IH3)
                 |d mid H (IH1 & IH2 & X & HX & IH3)|d mid H (IH1 & IH2 & X & HX & IH3)];
    cbn [app spec_of others filter of_root]; rewrite ?N.eqb_refl; cbn [negb]; try fold (others r mid).
  - split; [apply step_mine; [cbn; apply N.eqb_refl|discriminate|repeat split; auto]|]. split; auto.
    exists [None]. split; auto. cbn. rewrite upd_same'. auto.
  - rewrite Ho. cbn [negb]. split; [apply but_step; auto|]. cbn [app spec_of]. rewrite !step_others_levels by auto.
    split; auto. exists X. auto.
  - split; [apply step_mine; [cbn; apply N.eqb_refl|discriminate|auto]|]. split; auto.
    cbn [spec_step sp_levels]. rewrite upd_same', IH3. destruct X as [|x X].
    + exfalso. clear -H HX. cbn in HX. subst d. remember O as d. induction H; try discriminate; auto.
    + destruct (wval w _); cbn [set_top app]; [exists (Some o :: X)|exists (x :: X)]; auto.
  - split; [apply step_mine; [cbn; apply N.eqb_refl|discriminate|auto]|]. split; auto.
    exists (None :: X). cbn. rewrite upd_same', IH3. auto.
  - split; [apply step_mine; [cbn; apply N.eqb_refl|discriminate|auto]|]. split; auto.
    cbn [spec_step sp_levels]. rewrite upd_same', IH3. destruct X as [|x [|x2 X]]; try discriminate.
    cbn in HX |- *. destruct x; [exists (Some o :: X)|exists (x2 :: X)]; cbn; split; auto; lia.
  - split; [apply step_mine; [cbn; apply N.eqb_refl|discriminate|auto]|]. split; auto.
    cbn [spec_step sp_levels]. rewrite upd_same', IH3. destruct X as [|x X]; try discriminate.
    exists X. cbn in HX |- *. split; auto.
Qed.

(** A child that aborts leaves no trace. *)
Lemma erase_child r mid pre post : nest r 1 mid ->
  spec_eq (spec_of (post ++ VChildAbort r :: mid ++ VChild r :: pre)) (spec_of (post ++ others r mid ++ pre)).
Proof.
  intros H. apply spec_eq_app. destruct (nest_levels r 1 mid pre H) as ((Hv & Hl & Hf) & Hr & X & HX & Hx).
  cbn [spec_of spec_step]. split; [|split]; cbn [sp_val sp_levels sp_frozen]; auto.
  intros q. destruct (N.eq_dec q r) as [->|Hq]; [|rewrite upd_other' by auto; auto].
  rewrite upd_same', Hx, Hr. destruct X as [|x [|]]; try discriminate. auto.
Qed.

(** Nor does a root transaction. *)
Lemma erase_root r mid pre post : (forall e, In e mid -> of_root r e = true -> forall q, e <> VCommit q) ->
  (forall e, In e post -> of_root r e = false) ->
  spec_eq_but r (spec_of (post ++ VAbort r :: mid ++ VBegin r :: pre)) (spec_of (post ++ others r mid ++ pre)).
Proof.
  intros Hm Hp. apply but_app; auto. cbn [spec_of]. apply step_mine; [cbn; apply N.eqb_refl|discriminate|].
  induction mid as [|e mid IH]; cbn [app spec_of others filter].
  - apply step_mine; [cbn; apply N.eqb_refl|discriminate|repeat split; auto].
  - destruct (of_root r e) eqn:Ho; cbn [negb]; fold (others r mid).
    + apply step_mine; auto; [apply Hm; [left; auto|auto]|]. apply IH. intros; apply Hm; auto. right; auto.
    + cbn [app spec_of]. apply but_step; auto. apply IH. intros e' He Ho'; apply Hm; auto. right; auto.
Qed.
