(** Order reasoning for an arbitrary key comparison function that is a total
    preorder ([cmp_ok], LtSpec.v). *)
From Verif Require Import Base Bytes LtSpec.
Open Scope nat_scope.

Definition klt (c : bytes -> bytes -> comparison) a b := c a b = Lt.
Definition kle (c : bytes -> bytes -> comparison) a b := c a b <> Gt.
Definition keq (c : bytes -> bytes -> comparison) a b := c a b = Eq.
Definition kltb (c : bytes -> bytes -> comparison) a b := match c a b with Lt => true | _ => false end.
Definition kleb (c : bytes -> bytes -> comparison) a b := match c a b with Gt => false | _ => true end.
Definition keqb (c : bytes -> bytes -> comparison) a b := match c a b with Eq => true | _ => false end.

Section KOrd.
Context {c : bytes -> bytes -> comparison} (ok : cmp_ok c).

Lemma kle_refl a : kle c a a.
Proof. unfold kle. rewrite (cmp_refl _ ok). congruence. Qed.
Lemma kle_trans a b d : kle c a b -> kle c b d -> kle c a d.
Proof. exact (cmp_trans _ ok a b d). Qed.
Lemma klt_kle a b : klt c a b -> kle c a b.
Proof. unfold klt, kle. congruence. Qed.
Lemma klt_not a b : klt c a b <-> ~ kle c b a.
Proof. unfold klt, kle. rewrite (cmp_sym _ ok a b). destruct (c a b); cbn; split; try congruence; intros H; exfalso; apply H; congruence. Qed.
Lemma kle_not a b : kle c a b <-> ~ klt c b a.
Proof. unfold klt, kle. rewrite (cmp_sym _ ok a b). destruct (c a b); cbn; split; congruence. Qed.
Lemma klt_irrefl a : ~ klt c a a.
Proof. rewrite klt_not. intros H. apply H, kle_refl. Qed.
Lemma klt_kle_trans a b d : klt c a b -> kle c b d -> klt c a d.
Proof. rewrite !klt_not. intros H1 H2 H3. apply H1. eapply kle_trans; eauto. Qed.
Lemma kle_klt_trans a b d : kle c a b -> klt c b d -> klt c a d.
Proof. rewrite !klt_not. intros H1 H2 H3. apply H2. eapply kle_trans; eauto. Qed.
Lemma klt_trans a b d : klt c a b -> klt c b d -> klt c a d.
Proof. intros H1 H2. eapply klt_kle_trans; eauto. apply klt_kle, H2. Qed.
Lemma keq_kle a b : keq c a b <-> kle c a b /\ kle c b a.
Proof. unfold keq, kle. rewrite (cmp_sym _ ok a b). destruct (c a b); cbn; intuition congruence. Qed.
Lemma keq_sym a b : keq c a b -> keq c b a.
Proof. rewrite !keq_kle. tauto. Qed.
Lemma keq_refl a : keq c a a.
Proof. exact (cmp_refl _ ok a). Qed.
Lemma klt_or_kle a b : {klt c a b} + {kle c b a}.
Proof. unfold klt, kle. rewrite (cmp_sym _ ok a b). destruct (c a b); cbn; auto; right; congruence. Qed.
Lemma gt_klt a b : c a b = Gt -> klt c b a.
Proof. unfold klt. rewrite (cmp_sym _ ok a b). intros ->. reflexivity. Qed.
Lemma kltb_true a b : kltb c a b = true <-> klt c a b.
Proof. unfold kltb, klt. destruct (c a b); split; congruence. Qed.
Lemma kltb_false a b : kltb c a b = false <-> kle c b a.
Proof. rewrite kle_not. unfold kltb, klt. destruct (c a b); split; congruence. Qed.
Lemma kleb_true a b : kleb c a b = true <-> kle c a b.
Proof. unfold kleb, kle. destruct (c a b); split; congruence. Qed.
Lemma kleb_false a b : kleb c a b = false <-> klt c b a.
Proof. rewrite klt_not. unfold kleb, kle. destruct (c a b); split; try congruence; intros H; exfalso; apply H; congruence. Qed.
Lemma keqb_true a b : keqb c a b = true <-> keq c a b.
Proof. unfold keqb, keq. destruct (c a b); split; congruence. Qed.
Lemma keqb_false a b : keqb c a b = false <-> ~ keq c a b.
Proof. unfold keqb, keq. destruct (c a b); split; congruence. Qed.
Lemma nkeq a b : ~ keq c a b -> klt c a b \/ klt c b a.
Proof. unfold keq, klt. rewrite (cmp_sym _ ok a b). destruct (c a b); cbn; auto. congruence. Qed.
End KOrd.

(** Saturation: all consequences of the order facts in the context. *)
Ltac kfact P := match goal with H : P |- _ => fail 1 | _ => idtac end.
Ltac kconv ok :=
  repeat match goal with
  | H : kltb _ _ _ = true |- _ => apply kltb_true in H
  | H : kltb _ _ _ = false |- _ => apply (kltb_false ok) in H
  | H : kleb _ _ _ = true |- _ => apply kleb_true in H
  | H : kleb _ _ _ = false |- _ => apply (kleb_false ok) in H
  | H : keqb _ _ _ = true |- _ => apply keqb_true in H
  | H : keqb _ _ _ = false |- _ => apply keqb_false in H
  | H : ~ kle _ _ _ |- _ => rewrite <- (klt_not ok) in H
  | H : ~ klt _ _ _ |- _ => rewrite <- (kle_not ok) in H
  | H : keq _ _ _ |- _ => apply (keq_kle ok) in H; destruct H
  end.
Ltac ksat ok :=
  repeat match goal with
  | H : klt ?c ?a ?b, H' : klt ?c ?b ?d |- _ => kfact (klt c a d); pose proof (klt_trans ok _ _ _ H H')
  | H : klt ?c ?a ?b, H' : kle ?c ?b ?d |- _ => kfact (klt c a d); pose proof (klt_kle_trans ok _ _ _ H H')
  | H : kle ?c ?a ?b, H' : klt ?c ?b ?d |- _ => kfact (klt c a d); pose proof (kle_klt_trans ok _ _ _ H H')
  | H : kle ?c ?a ?b, H' : kle ?c ?b ?d |- _ => kfact (kle c a d); kfact (klt c a d); pose proof (kle_trans ok _ _ _ H H')
  end.
Ltac kord ok :=
  kconv ok; try match goal with |- keq _ _ _ => apply (keq_kle ok) end;
  repeat match goal with
  | |- _ /\ _ => split
  | |- ~ _ => intro; kconv ok
  | |- klt _ _ _ => apply (klt_not ok); intro
  | |- kle _ _ _ => apply (kle_not ok); intro
  | |- kltb _ _ _ = true => apply kltb_true
  | |- kltb _ _ _ = false => apply (kltb_false ok)
  | |- kleb _ _ _ = true => apply kleb_true
  | |- kleb _ _ _ = false => apply (kleb_false ok)
  | |- keqb _ _ _ = true => apply keqb_true, (keq_kle ok)
  end; try (exfalso; ksat ok;
  match goal with H : klt ?c ?a ?a |- _ => exact (klt_irrefl ok _ H) end).
