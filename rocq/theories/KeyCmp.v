(** The built-in key comparison: byte order, a prefix before what it is a prefix
    of (toku_keycompare, ft/ft-ops.cc:5239-5253).  memcmp compares bytes as
    unsigned. *)
From Verif Require Import Base Bytes LtSpec.
Open Scope N_scope.

Fixpoint key_cmp (a b : bytes) : comparison :=
  match a, b with
  | [], [] => Eq
  | [], _ => Lt
  | _, [] => Gt
  | x :: a', y :: b' => match x ?= y with Eq => key_cmp a' b' | c => c end
  end.

Lemma key_cmp_refl a : key_cmp a a = Eq.
Proof. induction a; cbn; auto. rewrite N.compare_refl. auto. Qed.

Lemma key_cmp_sym a : forall b, key_cmp b a = CompOpp (key_cmp a b).
Proof.
  induction a as [|x a IH]; intros [|y b]; cbn; auto.
  rewrite (N.compare_antisym x y). destruct (x ?= y); cbn; auto.
Qed.

Lemma key_cmp_eq a : forall b, key_cmp a b = Eq -> a = b.
Proof.
  induction a as [|x a IH]; intros [|y b]; cbn; try discriminate; auto.
  destruct (x ?= y) eqn:E; try discriminate. apply N.compare_eq in E. intros H. f_equal; auto.
Qed.

Lemma key_cmp_trans a : forall b c, key_cmp a b <> Gt -> key_cmp b c <> Gt -> key_cmp a c <> Gt.
Proof.
  induction a as [|x a IH]; intros [|y b] [|z c]; cbn; try congruence.
  destruct (x ?= y) eqn:E1; destruct (y ?= z) eqn:E2; try congruence.
  - apply N.compare_eq in E1. apply N.compare_eq in E2. subst. rewrite N.compare_refl. apply IH.
  - apply N.compare_eq in E1. subst. rewrite E2. congruence.
  - apply N.compare_eq in E2. subst. rewrite E1. congruence.
  - assert (E : (x ?= z) = Lt) by (apply N.compare_lt_iff in E1; apply N.compare_lt_iff in E2; apply N.compare_lt_iff; eapply N.lt_trans; eauto).
    rewrite E. congruence.
Qed.

Lemma key_cmp_ok : cmp_ok key_cmp.
Proof. constructor; [apply key_cmp_refl|intros; apply key_cmp_sym|exact key_cmp_trans]. Qed.
