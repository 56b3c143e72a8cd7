(** The tree of row locks behaves like the ordered list of its locks. *)
From Coq Require Import Sorting.Sorted Sorting.Permutation.
From Verif Require Import Base Bytes LtTreeModel LtSpec.

(** In-order content. *)
Fixpoint elems (t : tree) : list (rng * txnid) :=
  match t with
  | E => []
  | T _ l g x _ r => elems l ++ (g, x) :: elems r
  end.

Lemma size_elems t : size t = length (elems t).
Proof.
  induction t as [|dl l IHl g x dr r IHr]; cbn [size elems]; auto.
  rewrite app_length. cbn [length]. lia.
Qed.

Lemma elems_E t : elems t = [] -> t = E.
Proof. destruct t; cbn; auto. intros H. apply app_eq_nil in H as [_ H]. discriminate. Qed.

Lemma rebalance_elems t : elems (maybe_rebalance t) = elems t.
Proof.
  destruct t as [|dl l g x dr r]; auto. unfold maybe_rebalance.
  destruct (left_imbalanced 2 _).
  - destruct l as [|cdl cl cg cx cdr cr]; auto.
    destruct (right_imbalanced 0 _).
    + destruct cr as [|gdl gl gg gx gdr gr]; auto.
      cbn [elems]. repeat (rewrite <- !app_assoc; cbn [app]). reflexivity.
    + cbn [elems]. rewrite <- !app_assoc. reflexivity.
  - destruct (right_imbalanced 2 _); auto.
    destruct r as [|cdl cl cg cx cdr cr]; auto.
    destruct (left_imbalanced 0 _).
    + destruct cl as [|gdl gl gg gx gdr gr]; auto.
      cbn [elems]. repeat (rewrite <- !app_assoc; cbn [app]). reflexivity.
    + cbn [elems]. rewrite <- !app_assoc. reflexivity.
Qed.

Lemma lock_rebalance_elems d t : elems (snd (lock_and_rebalance d t)) = elems t.
Proof. destruct t; auto. unfold lock_and_rebalance. cbn [snd]. apply rebalance_elems. Qed.

Lemma pop_max_ok t : t <> E ->
  exists p g x, pop_max t = Some (p, g, x) /\ elems t = elems (snd p) ++ [(g, x)].
Proof.
  induction t as [|dl l _ g x dr r IHr]; intros Ht; [easy|]. cbn [pop_max].
  destruct r as [|rdl rl rg rx rdr rr].
  - exists (dl, l), g, x. auto.
  - destruct IHr as (p & g' & x' & -> & He); [easy|].
    eexists _, g', x'. split; [reflexivity|].
    cbn [snd]. change (elems (T dl l g x dr (T rdl rl rg rx rdr rr)))
      with (elems l ++ (g, x) :: elems (T rdl rl rg rx rdr rr)).
    rewrite He. cbn [elems]. rewrite <- app_assoc. reflexivity.
Qed.

Lemma pop_min_ok t : t <> E ->
  exists p g x, pop_min t = Some (p, g, x) /\ elems t = (g, x) :: elems (snd p).
Proof.
  induction t as [|dl l IHl g x dr r _]; intros Ht; [easy|]. cbn [pop_min].
  destruct l as [|rdl rl rg rx rdr rr].
  - exists (dr, r), g, x. auto.
  - destruct IHl as (p & g' & x' & -> & He); [easy|].
    eexists _, g', x'. split; [reflexivity|].
    cbn [snd]. change (elems (T dl (T rdl rl rg rx rdr rr) g x dr r))
      with (elems (T rdl rl rg rx rdr rr) ++ (g, x) :: elems r).
    rewrite He. cbn [elems]. reflexivity.
Qed.

Lemma remove_root_ok dl l g x dr r :
  exists t', remove_root (T dl l g x dr r) = Some t' /\ elems t' = elems l ++ elems r.
Proof.
  unfold remove_root. destruct l as [|ldl ll lg lx ldr lr].
  - destruct r as [|rdl rl rg rx rdr rr].
    + exists E. auto.
    + destruct (pop_min_ok (T rdl rl rg rx rdr rr)) as (p & g' & x' & -> & He); [easy|].
      eexists; split; [reflexivity|]. rewrite He. reflexivity.
  - destruct (pop_max_ok (T ldl ll lg lx ldr lr)) as (p & g' & x' & -> & He); [easy|].
    eexists; split; [reflexivity|]. rewrite He. cbn [elems]. rewrite <- app_assoc. reflexivity.
Qed.

Fixpoint ctxL (k : list frame) : list (rng * txnid) :=
  match k with
  | [] => []
  | FL _ _ _ _ _ :: k' => ctxL k'
  | FR _ l g x _ :: k' => ctxL k' ++ elems l ++ [(g, x)]
  end.
Fixpoint ctxR (k : list frame) : list (rng * txnid) :=
  match k with
  | [] => []
  | FL _ g x _ r :: k' => (g, x) :: elems r ++ ctxR k'
  | FR _ _ _ _ _ :: k' => ctxR k'
  end.

Lemma plug_elems k t : elems (plug k t) = ctxL k ++ elems t ++ ctxR k.
Proof.
  revert t; induction k as [|[dl g x dr r|dl l g x dr] k IH]; intros t; cbn [plug ctxL ctxR].
  - rewrite app_nil_r. reflexivity.
  - rewrite IH. cbn [elems]. rewrite <- app_assoc. reflexivity.
  - rewrite IH. cbn [elems]. rewrite <- !app_assoc. reflexivity.
Qed.

Lemma SS_app {A} (R : A -> A -> Prop) a b :
  StronglySorted R (a ++ b) <->
  StronglySorted R a /\ StronglySorted R b /\ (forall x y, In x a -> In y b -> R x y).
Proof.
  induction a as [|z a IH]; cbn.
  - split; [intros H; repeat split; auto; [constructor|easy] | tauto].
  - split.
    + intros H. inversion H as [|? ? Hs Hf]; subst. apply IH in Hs as (H1 & H2 & H3).
      rewrite Forall_app in Hf. destruct Hf as [Hf1 Hf2]. rewrite Forall_forall in Hf2.
      split; [constructor; auto|split; auto].
      intros x y [<-|Hx] Hy; auto.
    + intros (H1 & H2 & H3). inversion H1 as [|? ? Hs Hf]; subst.
      constructor.
      * apply IH. split; auto.
      * rewrite Forall_app. split; auto. apply Forall_forall. intros y Hy. apply H3; auto.
Qed.

Lemma split_cases {A} (l r a b : list A) m e :
  l ++ m :: r = a ++ e :: b ->
  (l = a /\ m = e /\ r = b) \/
  (exists b', l = a ++ e :: b' /\ b = b' ++ m :: r) \/
  (exists a', r = a' ++ e :: b /\ a = l ++ m :: a').
Proof.
  revert a; induction l as [|x l IH]; intros [|y a] H; cbn in H.
  - injection H as -> ->. auto.
  - injection H as -> ->. right; right. exists a. auto.
  - injection H as -> <-. right; left. exists l. auto.
  - injection H as -> H. destruct (IH a H) as [(-> & -> & ->)|[(b' & -> & ->)|(a' & -> & ->)]]; auto.
    + right; left. exists b'. auto.
    + right; right. exists a'. auto.
Qed.

Section Ord.

Variable kcmp : bytes -> bytes -> comparison.
Hypothesis OK : cmp_ok kcmp.

Notation cmp := (ecmp kcmp).
Notation le a b := (cmp a b <> Gt).
Notation lt a b := (cmp a b = Lt).

Lemma cmp_refl' a : cmp a a = Eq.
Proof. destruct a; auto. apply (cmp_refl _ OK). Qed.

Lemma cmp_sym' a b : cmp b a = CompOpp (cmp a b).
Proof. destruct a, b; auto. apply (cmp_sym _ OK). Qed.

Lemma le_trans a b c : le a b -> le b c -> le a c.
Proof.
  destruct a, b, c; cbn; auto; try congruence. apply (cmp_trans _ OK).
Qed.

Lemma le_refl a : le a a.
Proof. rewrite cmp_refl'. discriminate. Qed.

Lemma lt_le a b : lt a b -> le a b.
Proof. congruence. Qed.

Lemma lt_not a b : lt a b <-> ~ le b a.
Proof. rewrite (cmp_sym' a b). destruct (cmp a b); cbn; split; intros H;
  solve [discriminate | reflexivity | intros Q; apply Q; reflexivity | exfalso; apply H; discriminate].
Qed.

Lemma le_or_lt a b : {le a b} + {lt b a}.
Proof. rewrite (cmp_sym' a b). destruct (cmp a b); cbn; [left|left|right]; congruence. Qed.

Lemma lt_le_trans a b c : lt a b -> le b c -> lt a c.
Proof. rewrite !lt_not. intros H1 H2 H3. apply H1. eapply le_trans; eauto. Qed.
Lemma le_lt_trans a b c : le a b -> lt b c -> lt a c.
Proof. rewrite !lt_not. intros H1 H2 H3. apply H2. eapply le_trans; eauto. Qed.
Lemma lt_trans a b c : lt a b -> lt b c -> lt a c.
Proof. intros H1 H2. eapply lt_le_trans; eauto. congruence. Qed.
Lemma lt_irrefl a : ~ lt a a.
Proof. rewrite cmp_refl'. discriminate. Qed.
Lemma cmp_eq_le a b : cmp a b = Eq <-> le a b /\ le b a.
Proof. rewrite (cmp_sym' a b). destruct (cmp a b); cbn; split; intros H; repeat split; try congruence; destruct H; congruence. Qed.
Lemma ep_le_iff a b : ep_le kcmp a b <-> le a b.
Proof. destruct a, b; cbn; intuition congruence. Qed.
Lemma gt_lt a b : cmp a b = Gt <-> lt b a.
Proof. rewrite (cmp_sym' a b). destruct (cmp a b); cbn; split; congruence. Qed.

(** ** Ranges *)

Definition valid (g : rng) : Prop := le (r_l g) (r_r g).
(** [a] lies entirely before [b]. *)
Definition rlt (a b : rng) : Prop := lt (r_r a) (r_l b).
Definition apart (a b : rng) : Prop := rlt a b \/ rlt b a.
(** [a] contains [b]. *)
Definition within (b a : rng) : Prop := le (r_l a) (r_l b) /\ le (r_r b) (r_r a).
Definition req (a b : rng) : Prop := within a b /\ within b a.

Lemma rlt_asym a b : valid a -> valid b -> rlt a b -> ~ rlt b a.
Proof.
  unfold valid, rlt. intros Ha Hb H1 H2. apply (lt_irrefl (r_l a)).
  eapply le_lt_trans; [exact Ha|]. eapply lt_le_trans; [exact H1|].
  eapply le_trans; [exact Hb|]. apply lt_le, H2.
Qed.

Lemma rlt_trans a b c : valid b -> rlt a b -> rlt b c -> rlt a c.
Proof.
  unfold valid, rlt. intros Hb H1 H2. eapply lt_le_trans; [exact H1|].
  eapply le_trans; [exact Hb|]. apply lt_le, H2.
Qed.

Lemma rcompare_less a b : rcompare kcmp a b = LESS_THAN <-> rlt a b.
Proof.
  unfold rcompare, rlt. destruct (cmp (r_r a) (r_l b)); split; try congruence;
  destruct (cmp (r_l a) (r_r b)); try congruence;
  destruct (cmp (r_l a) (r_l b)), (cmp (r_r a) (r_r b)); congruence.
Qed.

Lemma rcompare_greater a b : valid a -> valid b ->
  rcompare kcmp a b = GREATER_THAN <-> rlt b a.
Proof.
  intros Ha Hb. split.
  - unfold rcompare, rlt. rewrite (cmp_sym' (r_l a) (r_r b)).
    destruct (cmp (r_r a) (r_l b)); try congruence;
    destruct (cmp (r_l a) (r_r b)); cbn; try congruence;
    destruct (cmp (r_l a) (r_l b)), (cmp (r_r a) (r_r b)); congruence.
  - intros H. pose proof (rlt_asym _ _ Hb Ha H) as Hn. unfold rlt in *.
    unfold rcompare. destruct (cmp (r_r a) (r_l b)) eqn:E1; try tauto;
    rewrite (cmp_sym' (r_r b) (r_l a)), H; cbn; reflexivity.
Qed.

Lemma roverlaps_iff a b : valid a -> valid b ->
  roverlaps kcmp a b = true <-> ~ apart a b.
Proof.
  intros Ha Hb. unfold roverlaps, apart.
  destruct (rcompare kcmp a b) eqn:Ec.
  - split; auto. intros _ [H|H]; [apply rcompare_less in H|apply (rcompare_greater _ _ Ha Hb) in H]; congruence.
  - apply rcompare_less in Ec. split; [congruence|tauto].
  - apply (rcompare_greater _ _ Ha Hb) in Ec. split; [congruence|tauto].
  - split; auto. intros _ [H|H]; [apply rcompare_less in H|apply (rcompare_greater _ _ Ha Hb) in H]; congruence.
Qed.

Lemma roverlaps_false a b : valid a -> valid b ->
  roverlaps kcmp a b = false <-> apart a b.
Proof.
  intros Ha Hb. pose proof (roverlaps_iff a b Ha Hb) as H.
  destruct (roverlaps kcmp a b); split; try congruence.
  - intros Hp. exfalso. apply H; auto.
  - intros _. unfold apart, rlt. destruct (le_or_lt (r_l b) (r_r a)) as [H1|H1]; auto.
    destruct (le_or_lt (r_l a) (r_r b)) as [H2|H2]; auto.
    exfalso. assert (false = true); [|congruence]. apply H.
    unfold apart, rlt. rewrite !lt_not. tauto.
Qed.

Lemma roverlaps_sym a b : valid a -> valid b ->
  roverlaps kcmp a b = roverlaps kcmp b a.
Proof.
  intros Ha Hb. destruct (roverlaps kcmp b a) eqn:H.
  - apply roverlaps_iff in H; auto. apply roverlaps_iff; auto. unfold apart in *. tauto.
  - apply roverlaps_false in H; auto. apply roverlaps_false; auto. unfold apart in *. tauto.
Qed.

Lemma rcompare_equals a b : rcompare kcmp a b = EQUALS -> req a b.
Proof.
  unfold rcompare. destruct (cmp (r_r a) (r_l b)); try congruence;
  destruct (cmp (r_l a) (r_r b)); try congruence;
  destruct (cmp (r_l a) (r_l b)) eqn:E1, (cmp (r_r a) (r_r b)) eqn:E2; try congruence;
  intros _; apply cmp_eq_le in E1, E2; unfold req, within; tauto.
Qed.

Lemma equals_rcompare a b : valid a -> valid b -> req a b -> rcompare kcmp a b = EQUALS.
Proof.
  intros Ha Hb [[H1 H2] [H3 H4]].
  assert (E1 : cmp (r_l a) (r_l b) = Eq) by (apply cmp_eq_le; auto).
  assert (E2 : cmp (r_r a) (r_r b) = Eq) by (apply cmp_eq_le; auto).
  unfold rcompare. rewrite E1, E2.
  destruct (cmp (r_r a) (r_l b)) eqn:E3.
  - destruct (cmp (r_l a) (r_r b)) eqn:E4; auto.
    apply gt_lt, lt_not in E4. exfalso. apply E4. eapply le_trans; eauto.
  - apply lt_not in E3. exfalso. apply E3. eapply le_trans; eauto.
  - destruct (cmp (r_l a) (r_r b)) eqn:E4; auto.
    apply gt_lt, lt_not in E4. exfalso. apply E4. eapply le_trans; eauto.
Qed.

Lemma rlt_within a b a' b' : rlt a b -> within a' a -> within b' b -> rlt a' b'.
Proof.
  unfold rlt, within. intros H [H1 H2] [H3 H4].
  eapply le_lt_trans; [exact H2|]. eapply lt_le_trans; eauto.
Qed.

Lemma within_refl a : within a a.
Proof. split; apply le_refl. Qed.
Lemma within_trans a b c : within a b -> within b c -> within a c.
Proof. intros [H1 H2] [H3 H4]. split; eapply le_trans; eauto. Qed.
Lemma req_refl a : req a a.
Proof. split; apply within_refl. Qed.

Lemma inf_within g : within g inf_range.
Proof. split; destruct g as [[] []]; cbn; congruence. Qed.
Lemma inf_valid : valid inf_range.
Proof. unfold valid. cbn. congruence. Qed.

Lemma extend_valid a b : valid a -> valid b -> valid (rextend kcmp a b).
Proof.
  unfold valid, rextend. intros Ha Hb.
  destruct (cmp (r_l b) (r_l a)) eqn:E1; cbn [r_l r_r];
  destruct (cmp (r_r b) (r_r a)) eqn:E2; cbn [r_l r_r]; auto.
  - eapply le_trans; [exact Ha|]. apply gt_lt in E2. apply lt_le; auto.
  - eapply le_trans; [|exact Ha]. apply lt_le; auto.
  - eapply le_trans; [|exact Ha]. apply lt_le; auto.
  - apply gt_lt in E1, E2. eapply le_trans; [exact Ha|]. apply lt_le; auto.
Qed.

Lemma extend_l a b : within a (rextend kcmp a b).
Proof.
  unfold within, rextend.
  destruct (cmp (r_l b) (r_l a)) eqn:E1; cbn [r_l r_r];
  destruct (cmp (r_r b) (r_r a)) eqn:E2; cbn [r_l r_r]; split;
  try apply le_refl; try (apply lt_le; assumption); apply lt_le; apply gt_lt; auto.
Qed.

Lemma extend_r a b : within b (rextend kcmp a b).
Proof.
  unfold within, rextend.
  destruct (cmp (r_l b) (r_l a)) eqn:E1; cbn [r_l r_r];
  destruct (cmp (r_r b) (r_r a)) eqn:E2; cbn [r_l r_r]; split;
  try apply le_refl; try (rewrite E2; discriminate);
  rewrite (cmp_sym' (r_l b) (r_l a)), E1; discriminate.
Qed.

(** A range before both stays before the union. *)
Lemma extend_rlt_l c a b : rlt c a -> rlt c b -> rlt c (rextend kcmp a b).
Proof.
  unfold rlt, rextend. intros.
  destruct (cmp (r_l b) (r_l a)) eqn:E1; cbn [r_l r_r];
  destruct (cmp (r_r b) (r_r a)) eqn:E2; cbn [r_l r_r]; auto.
Qed.
Lemma extend_rlt_r c a b : rlt a c -> rlt b c -> rlt (rextend kcmp a b) c.
Proof.
  unfold rlt, rextend. intros.
  destruct (cmp (r_l b) (r_l a)) eqn:E1; cbn [r_l r_r];
  destruct (cmp (r_r b) (r_r a)) eqn:E2; cbn [r_l r_r]; auto.
Qed.

(** The end points of the union are end points of the parts. *)
Lemma extend_ends a b :
  (r_l (rextend kcmp a b) = r_l a \/ r_l (rextend kcmp a b) = r_l b) /\
  (r_r (rextend kcmp a b) = r_r a \/ r_r (rextend kcmp a b) = r_r b).
Proof.
  unfold rextend.
  destruct (cmp (r_l b) (r_l a)) eqn:E1; cbn [r_l r_r];
  destruct (cmp (r_r b) (r_r a)) eqn:E2; cbn [r_l r_r]; auto.
Qed.

(** ** Ordered lists of locks *)

Definition before (a b : rng * txnid) : Prop := rlt (fst a) (fst b).

Definition dsorted (es : list (rng * txnid)) : Prop :=
  StronglySorted before es /\ Forall (fun e => valid (fst e)) es.

Lemma dsorted_app a b :
  dsorted (a ++ b) <->
  dsorted a /\ dsorted b /\ (forall x y, In x a -> In y b -> before x y).
Proof. unfold dsorted. rewrite SS_app, Forall_app. tauto. Qed.

Lemma dsorted_cons e b :
  dsorted (e :: b) <-> valid (fst e) /\ dsorted b /\ (forall y, In y b -> before e y).
Proof.
  change (e :: b) with ([e] ++ b). rewrite dsorted_app. split.
  - intros ([_ Hv] & Hb & H). inversion Hv; subst. repeat split; auto; try apply Hb.
    intros y Hy. apply H; cbn; auto.
  - intros (Hv & Hb & H). split; [|split; auto].
    + split; constructor; auto; constructor.
    + intros x y [<-|[]] Hy. auto.
Qed.

Lemma dsorted_nil : dsorted [].
Proof. split; constructor. Qed.

Lemma dsorted_valid es e : dsorted es -> In e es -> valid (fst e).
Proof. intros [_ H] Hi. rewrite Forall_forall in H. auto. Qed.

Definition ovl (rg : rng) (e : rng * txnid) : bool := roverlaps kcmp rg (fst e).

Lemma filter_none {A} (f : A -> bool) l : (forall x, In x l -> f x = false) -> filter f l = [].
Proof.
  induction l as [|x l IH]; intros H; cbn; auto.
  rewrite (H x), IH; auto; cbn; auto. intros; apply H; cbn; auto.
Qed.

Lemma ovl_lt rg e : valid rg -> valid (fst e) -> rlt rg (fst e) -> ovl rg e = false.
Proof. intros. apply roverlaps_false; auto. left; auto. Qed.
Lemma ovl_gt rg e : valid rg -> valid (fst e) -> rlt (fst e) rg -> ovl rg e = false.
Proof. intros. apply roverlaps_false; auto. right; auto. Qed.

Lemma split_unique a b a' b' e : dsorted (a ++ e :: b) -> a' ++ e :: b' = a ++ e :: b ->
  a = a' /\ b = b'.
Proof.
  intros Hs He. destruct (split_cases _ _ _ _ _ _ He) as [(-> & _ & ->)|[(c & -> & ->)|(c & -> & ->)]]; auto.
  - exfalso. apply dsorted_app in Hs as (_ & Hs & _). apply dsorted_cons in Hs as (Hg & _ & Hb).
    assert (H : before e e) by (apply Hb, in_or_app; cbn; auto).
    apply (rlt_asym (fst e) (fst e)); auto.
  - exfalso. rewrite <- app_assoc in Hs. apply dsorted_app in Hs as (_ & Hs & _).
    cbn in Hs. apply dsorted_cons in Hs as (Hg & _ & Hb).
    assert (H : before e e) by (apply Hb, in_or_app; cbn; auto).
    apply (rlt_asym (fst e) (fst e)); auto.
Qed.

(** ** The operations of the tree on its list *)

Definition fold_fn {A} (fn : A -> rng -> txnid -> A * bool) (a : A) (e : rng * txnid) : A :=
  fst (fn a (fst e) (snd e)).

(** After [fn] has asked to stop, more calls change nothing. *)
Definition sticky {A} (fn : A -> rng -> txnid -> A * bool) : Prop :=
  forall a g x, snd (fn a g x) = false ->
  forall g' x', fst (fn (fst (fn a g x)) g' x') = fst (fn a g x).

Lemma fold_stopped {A} (fn : A -> rng -> txnid -> A * bool) a l :
  (forall g' x', fst (fn a g' x') = a) -> fold_left (fold_fn fn) l a = a.
Proof.
  intros H. induction l as [|e l IH]; cbn; auto. unfold fold_fn at 2. rewrite H. auto.
Qed.

Lemma traverse_ok {A} (rg : rng) (fn : A -> rng -> txnid -> A * bool) :
  valid rg -> sticky fn -> forall t a, dsorted (elems t) ->
  fst (traverse kcmp rg fn t a) = fold_left (fold_fn fn) (filter (ovl rg) (elems t)) a
  /\ elems (snd (traverse kcmp rg fn t a)) = elems t.
Proof.
  intros Hv Hst. induction t as [|dl l IHl g x dr r IHr]; intros a Hs; [auto|].
  cbn [traverse elems] in *.
  apply dsorted_app in Hs as (Hl & Hr0 & Hlr).
  pose proof Hr0 as Hr1. apply dsorted_cons in Hr1 as (Hg & Hr & Hgr). cbn [fst] in Hg.
  assert (HL : forall e, In e (elems l) -> rlt (fst e) g).
  { intros e He. apply (Hlr e (g, x)); cbn; auto. }
  assert (HR : forall e, In e (elems r) -> rlt g (fst e)).
  { intros e He. apply (Hgr e He). }
  rewrite filter_app. cbn [filter]. unfold ovl at 2. cbn [fst].
  destruct (rcompare kcmp rg g) eqn:Ec.
  - (* EQUALS *)
    apply rcompare_equals in Ec as [Hw1 Hw2].
    assert (Ho : roverlaps kcmp rg g = true).
    { apply roverlaps_iff; auto. unfold apart. intros [H|H].
      - apply (rlt_asym g g); auto; eapply rlt_within; eauto using within_refl.
      - apply (rlt_asym g g); auto; eapply rlt_within; eauto using within_refl. }
    rewrite Ho. rewrite (filter_none (ovl rg) (elems l)), (filter_none (ovl rg) (elems r)).
    + cbn. auto.
    + intros e He. apply ovl_lt; auto. apply (dsorted_valid (elems r)); auto.
      eapply rlt_within; eauto using within_refl.
    + intros e He. apply ovl_gt; auto. apply (dsorted_valid (elems l)); auto.
      eapply rlt_within; eauto using within_refl.
  - (* LESS_THAN *)
    destruct (IHl a Hl) as [H1 H2].
    destruct (traverse kcmp rg fn l a) as [a1 l1]. cbn [fst snd elems] in *.
    unfold roverlaps. rewrite Ec. apply rcompare_less in Ec.
    rewrite (filter_none (ovl rg) (elems r)), app_nil_r, H1, H2; auto.
    intros e He. apply ovl_lt; auto. apply (dsorted_valid (elems r)); auto.
    eapply rlt_trans; [exact Hg|exact Ec|]; auto.
  - (* GREATER_THAN *)
    destruct (IHr a Hr) as [H1 H2].
    destruct (traverse kcmp rg fn r a) as [a1 r1]. cbn [fst snd elems] in *.
    unfold roverlaps. rewrite Ec. apply rcompare_greater in Ec; auto.
    rewrite (filter_none (ovl rg) (elems l)), H1, H2; auto.
    intros e He. apply ovl_gt; auto. apply (dsorted_valid (elems l)); auto.
    eapply rlt_trans; [exact Hg| |exact Ec]; auto.
  - (* OVERLAPS *)
    unfold roverlaps. rewrite Ec.
    destruct (IHl a Hl) as [H1 H2].
    destruct (traverse kcmp rg fn l a) as [a1 l1]. cbn [fst snd] in *. subst a1.
    rewrite fold_left_app. cbn [fold_left]. unfold fold_fn at 3. cbn [fst snd].
    set (a1 := fold_left _ _ a).
    pose proof (Hst a1 g x) as Hk.
    destruct (fn a1 g x) as [a2 go]. cbn [fst snd] in *.
    destruct go.
    + destruct (IHr a2 Hr) as [H3 H4].
      destruct (traverse kcmp rg fn r a2) as [a3 r1]. cbn [fst snd elems] in *.
      rewrite H3, H2, H4. auto.
    + cbn [fst snd elems]. rewrite H2. split; auto.
      symmetry. apply fold_stopped. auto.
Qed.

Lemma lock_rebalance_E d t : snd (lock_and_rebalance d t) = E -> t = E.
Proof.
  intros H. apply elems_E. rewrite <- (lock_rebalance_elems d), H. reflexivity.
Qed.

Lemma tree_insert_ok rg x : valid rg -> forall n t,
  (size t <= n)%nat -> t <> E -> dsorted (elems t) ->
  (forall e, In e (elems t) -> apart rg (fst e)) ->
  exists t' a b, tree_insert kcmp n rg x t = Some t' /\
    elems t = a ++ b /\ elems t' = a ++ (rg, x) :: b /\
    (forall e, In e a -> rlt (fst e) rg) /\ (forall e, In e b -> rlt rg (fst e)).
Proof.
  intros Hv. induction n as [|n IH]; intros t Hn Ht Hs Ha.
  { destruct t; [easy|cbn in Hn; lia]. }
  destruct t as [|dl l g y dr r]; [easy|]. cbn [tree_insert].
  cbn [elems] in Hs, Ha. apply dsorted_app in Hs as (Hl & Hr0 & Hlr).
  pose proof Hr0 as Hr1. apply dsorted_cons in Hr1 as (Hg & Hr & Hgr). cbn [fst] in Hg.
  cbn [size] in Hn.
  assert (Hag : apart rg g) by (apply (Ha (g, y)), in_or_app; cbn; auto).
  destruct (rcompare kcmp rg g) eqn:Ec.
  - exfalso. apply rcompare_equals in Ec as [Hw1 Hw2].
    destruct Hag as [H|H]; apply (rlt_asym g g); auto; eapply rlt_within; eauto using within_refl.
  - apply rcompare_less in Ec.
    pose proof (lock_rebalance_elems dl l) as He.
    destruct (lock_and_rebalance dl l) as [dl' l'] eqn:Eb. cbn [snd] in He.
    assert (HR : forall e, In e ((g, y) :: elems r) -> rlt rg (fst e)).
    { intros e [<-|Hi]; auto. eapply rlt_trans; [exact Hg|exact Ec|]. apply (Hgr e Hi). }
    destruct l' as [|ldl ll lg lx ldr lr].
    + eexists _, [], (elems l ++ (g, y) :: elems r). split; [reflexivity|].
      cbn [elems] in He |- *. rewrite <- He. cbn.
      split; [reflexivity|]. split; [reflexivity|]. split; [easy|]. exact HR.
    + destruct (IH (T ldl ll lg lx ldr lr)) as (l'' & a & b & -> & E1 & E2 & E3 & E4).
      * rewrite size_elems, He, <- size_elems. lia.
      * easy.
      * rewrite He; auto.
      * rewrite He. intros e Hi. apply Ha, in_or_app; auto.
      * rewrite He in E1.
        eexists _, a, (b ++ (g, y) :: elems r). split; [reflexivity|].
        cbn [elems]. rewrite E1, E2, <- !app_assoc. cbn.
        split; [reflexivity|]. split; [reflexivity|]. split; [exact E3|].
        intros e Hi. apply in_app_or in Hi as [Hi|Hi]; auto.
  - apply rcompare_greater in Ec; auto.
    pose proof (lock_rebalance_elems dr r) as He.
    destruct (lock_and_rebalance dr r) as [dr' r'] eqn:Eb. cbn [snd] in He.
    assert (HL : forall e, In e (elems l ++ [(g, y)]) -> rlt (fst e) rg).
    { intros e Hi. apply in_app_or in Hi as [Hi|[<-|[]]]; auto.
      eapply rlt_trans; [exact Hg| |exact Ec]. apply (Hlr e (g, y)); cbn; auto. }
    destruct r' as [|ldl ll lg lx ldr lr].
    + eexists _, (elems l ++ [(g, y)]), []. split; [reflexivity|].
      cbn [elems] in He |- *. rewrite <- He, <- !app_assoc. cbn.
      split; [reflexivity|]. split; [reflexivity|]. split; [exact HL|easy].
    + destruct (IH (T ldl ll lg lx ldr lr)) as (r'' & a & b & -> & E1 & E2 & E3 & E4).
      * rewrite size_elems, He, <- size_elems. lia.
      * easy.
      * rewrite He; auto.
      * rewrite He. intros e Hi. apply Ha, in_or_app; cbn; auto.
      * rewrite He in E1.
        eexists _, (elems l ++ (g, y) :: a), b. split; [reflexivity|].
        cbn [elems]. rewrite E1, E2, <- !app_assoc. cbn.
        split; [reflexivity|]. split; [reflexivity|]. split; [|exact E4].
        intros e Hi. apply in_app_or in Hi as [Hi|[<-|Hi]]; auto.
        apply HL, in_or_app; auto.
  - exfalso. assert (roverlaps kcmp rg g = true) as Ho by (unfold roverlaps; rewrite Ec; auto).
    apply roverlaps_iff in Ho; auto.
Qed.

Lemma tree_remove_ok rg : valid rg -> forall t a b g x,
  dsorted (elems t) -> elems t = a ++ (g, x) :: b -> req rg g ->
  exists t', tree_remove kcmp rg t = Some t' /\ elems t' = a ++ b.
Proof.
  intros Hv. induction t as [|dl l IHl g0 x0 dr r IHr]; intros a b g x Hs He Hq.
  { destruct a; discriminate. }
  cbn [tree_remove elems] in *.
  apply dsorted_app in Hs as (Hl & Hr0 & Hlr).
  pose proof Hr0 as Hr1. apply dsorted_cons in Hr1 as (Hg & Hr & Hgr). cbn [fst] in Hg.
  destruct (split_cases _ _ _ _ _ _ He) as [(<- & E1 & <-)|[(b' & E1 & ->)|(a' & E1 & ->)]].
  - injection E1 as -> ->. rewrite (equals_rcompare rg g); auto. apply remove_root_ok.
  - assert (Hc : rcompare kcmp rg g0 = LESS_THAN).
    { apply rcompare_less. eapply rlt_within; [|apply Hq|apply within_refl].
      apply (Hlr (g, x) (g0, x0)); cbn; auto. rewrite E1. apply in_or_app; cbn; auto. }
    rewrite Hc. destruct (IHl a b' g x) as (l' & -> & E2); auto.
    eexists; split; [reflexivity|]. cbn [elems]. rewrite E2, <- app_assoc. reflexivity.
  - assert (Hgv : valid g).
    { apply (dsorted_valid (elems r) (g, x)); auto. rewrite E1. apply in_or_app; cbn; auto. }
    assert (Hc : rcompare kcmp rg g0 = GREATER_THAN).
    { apply rcompare_greater; auto. eapply rlt_within; [|apply within_refl|apply Hq].
      apply (Hgr (g, x)). rewrite E1. apply in_or_app; cbn; auto. }
    rewrite Hc. destruct (IHr a' b g x) as (r' & -> & E2); auto.
    eexists; split; [reflexivity|]. cbn [elems]. rewrite E2, <- !app_assoc. reflexivity.
Qed.

(** The position found for a range: every lock outside the subtree is apart
    from the range. *)
Definition placed (k : lkr) : Prop :=
  (forall e, In e (ctxL (k_ctx k)) -> rlt (fst e) (k_rng k)) /\
  (forall e, In e (ctxR (k_ctx k)) -> rlt (k_rng k) (fst e)).

Definition kelems (k : lkr) := elems (lkr_release k).

Lemma kelems_eq k : kelems k = ctxL (k_ctx k) ++ elems (k_sub k) ++ ctxR (k_ctx k).
Proof. apply plug_elems. Qed.

Lemma find_ovl_ok rg : valid rg -> forall n t k,
  (size t <= n)%nat -> t <> E -> dsorted (elems (plug k t)) ->
  match t with T _ _ g _ _ _ => apart rg g | E => True end ->
  (forall e, In e (ctxL k) -> rlt (fst e) rg) ->
  (forall e, In e (ctxR k) -> rlt rg (fst e)) ->
  exists k' t', find_ovl kcmp n rg t k = Some (k', t') /\
    (exists e, In e (elems t') /\ apart rg (fst e)) /\
    elems (plug k' t') = elems (plug k t) /\
    (forall e, In e (ctxL k') -> rlt (fst e) rg) /\
    (forall e, In e (ctxR k') -> rlt rg (fst e)).
Proof.
  intros Hv. induction n as [|n IH]; intros t k Hn Ht Hs Hap HL HR.
  { destruct t; [easy|cbn in Hn; lia]. }
  destruct t as [|dl l g x dr r]; [easy|]. cbn [find_ovl].
  cbn [size] in Hn.
  pose proof Hs as Hs0. rewrite plug_elems in Hs0. cbn [elems] in Hs0.
  apply dsorted_app in Hs0 as (_ & Hs0 & _). apply dsorted_app in Hs0 as (Hs0 & _ & _).
  apply dsorted_app in Hs0 as (Hl & Hr0 & Hlr).
  apply dsorted_cons in Hr0 as (Hg & Hr & Hgr). cbn [fst] in Hg.
  destruct (rcompare kcmp rg g) eqn:Ec.
  - exfalso. apply rcompare_equals in Ec as [Hw1 Hw2].
    destruct Hap as [H|H]; apply (rlt_asym g g); auto; eapply rlt_within; eauto using within_refl.
  - apply rcompare_less in Ec.
    pose proof (lock_rebalance_elems dl l) as He.
    destruct (lock_and_rebalance dl l) as [dl' l'] eqn:Eb. cbn [snd] in He.
    assert (Hel : elems (plug k (T dl' l' g x dr r)) = elems (plug k (T dl l g x dr r))).
    { rewrite !plug_elems. cbn [elems]. rewrite He. reflexivity. }
    destruct l' as [|cdl cl cg cx cdr cr].
    + eexists _, _. split; [reflexivity|]. rewrite Hel. split; [|auto].
      exists (g, x). split; [cbn [elems]; apply in_or_app; cbn; auto|exact Hap].
    + destruct (roverlaps kcmp rg cg) eqn:Eo.
      * eexists _, _. split; [reflexivity|]. rewrite Hel. split; [|auto].
        exists (g, x). split; [cbn [elems]; apply in_or_app; cbn; auto|exact Hap].
      * destruct (IH (T cdl cl cg cx cdr cr) (FL dl' g x dr r :: k)) as (k' & t' & -> & Ht' & E1 & E2 & E3).
        -- rewrite size_elems, He, <- size_elems. lia.
        -- easy.
        -- cbn [plug]. rewrite Hel. auto.
        -- apply roverlaps_false in Eo; auto.
           apply (dsorted_valid (elems l) (cg, cx)); auto. rewrite <- He. cbn. apply in_or_app; cbn; auto.
        -- auto.
        -- cbn [ctxR]. intros e [<-|Hi]; auto. apply in_app_or in Hi as [Hi|Hi]; auto.
           eapply rlt_trans; [exact Hg|exact Ec|]. apply (Hgr e Hi).
        -- exists k', t'. split; auto. split; auto. rewrite E1. cbn [plug]. rewrite Hel. auto.
  - apply rcompare_greater in Ec; auto.
    pose proof (lock_rebalance_elems dr r) as He.
    destruct (lock_and_rebalance dr r) as [dr' r'] eqn:Eb. cbn [snd] in He.
    assert (Hel : elems (plug k (T dl l g x dr' r')) = elems (plug k (T dl l g x dr r))).
    { rewrite !plug_elems. cbn [elems]. rewrite He. reflexivity. }
    destruct r' as [|cdl cl cg cx cdr cr].
    + eexists _, _. split; [reflexivity|]. rewrite Hel. split; [|auto].
      exists (g, x). split; [cbn [elems]; apply in_or_app; cbn; auto|exact Hap].
    + destruct (roverlaps kcmp rg cg) eqn:Eo.
      * eexists _, _. split; [reflexivity|]. rewrite Hel. split; [|auto].
        exists (g, x). split; [cbn [elems]; apply in_or_app; cbn; auto|exact Hap].
      * destruct (IH (T cdl cl cg cx cdr cr) (FR dl l g x dr' :: k)) as (k' & t' & -> & Ht' & E1 & E2 & E3).
        -- rewrite size_elems, He, <- size_elems. lia.
        -- easy.
        -- cbn [plug]. rewrite Hel. auto.
        -- apply roverlaps_false in Eo; auto.
           apply (dsorted_valid (elems r) (cg, cx)); auto. rewrite <- He. cbn. apply in_or_app; cbn; auto.
        -- cbn [ctxL]. intros e Hi. apply in_app_or in Hi as [Hi|Hi]; auto.
           apply in_app_or in Hi as [Hi|[<-|[]]]; auto.
           eapply rlt_trans; [exact Hg| |exact Ec]. apply (Hlr e (g, x)); cbn; auto.
        -- auto.
        -- exists k', t'. split; auto. split; auto. rewrite E1. cbn [plug]. rewrite Hel. auto.
  - exfalso. assert (roverlaps kcmp rg g = true) as Ho by (unfold roverlaps; rewrite Ec; auto).
    apply roverlaps_iff in Ho; auto.
Qed.

(** A locked_keyrange in use: it holds the whole tree, or its subtree contains a
    lock that is apart from the range and so stays there. *)
Definition anchored (k : lkr) : Prop :=
  k_ctx k = [] \/ exists e, In e (elems (k_sub k)) /\ apart (k_rng k) (fst e).

Definition lkr_ok (k : lkr) : Prop :=
  dsorted (kelems k) /\ placed k /\ valid (k_rng k) /\ anchored k.

Lemma acquire_ok t rg : valid rg -> dsorted (elems t) ->
  exists k, lkr_acquire kcmp (lkr_prepare t) rg = Some k /\
    lkr_ok k /\ kelems k = elems t /\ k_rng k = rg.
Proof.
  intros Hv Hs. unfold lkr_acquire, lkr_prepare. cbn [k_sub k_ctx].
  destruct t as [|dl l g x dr r].
  - eexists; split; [reflexivity|]. unfold lkr_ok, kelems, placed, anchored; cbn.
    refine (conj (conj dsorted_nil (conj (conj _ _) (conj Hv (or_introl eq_refl)))) (conj eq_refl eq_refl)); easy.
  - assert (Hg : valid g).
    { apply (dsorted_valid _ (g, x) Hs). cbn. apply in_or_app; cbn; auto. }
    destruct (roverlaps kcmp g rg) eqn:Eo.
    + eexists; split; [reflexivity|]. unfold lkr_ok, kelems, placed, anchored;
      cbn [lkr_release k_ctx k_sub plug k_rng ctxL ctxR].
      refine (conj (conj Hs (conj (conj _ _) (conj Hv (or_introl eq_refl)))) (conj eq_refl eq_refl)); easy.
    + destruct (find_ovl_ok rg Hv (size (T dl l g x dr r)) (T dl l g x dr r) [])
        as (k' & t' & -> & Ht & E1 & E2 & E3); auto; try easy.
      { apply roverlaps_false in Eo; auto. unfold apart in *. tauto. }
      eexists; split; [reflexivity|].
      unfold lkr_ok, kelems, placed, anchored, lkr_release; cbn [k_ctx k_sub k_rng].
      rewrite E1. cbn [plug].
      exact (conj (conj Hs (conj (conj E2 E3) (conj Hv (or_intror Ht)))) (conj eq_refl eq_refl)).
Qed.

Lemma filter_ctx k : lkr_ok k ->
  filter (ovl (k_rng k)) (elems (k_sub k)) = filter (ovl (k_rng k)) (kelems k).
Proof.
  intros (Hs & [H1 H2] & Hv & _). rewrite kelems_eq in *. rewrite !filter_app.
  apply dsorted_app in Hs as (Ha & Hb & _). apply dsorted_app in Hb as (_ & Hc & _).
  rewrite (filter_none _ (ctxL _)), (filter_none _ (ctxR _)), app_nil_r; auto.
  - intros e He. apply ovl_lt; auto. apply (dsorted_valid (ctxR (k_ctx k))); auto.
  - intros e He. apply ovl_gt; auto. apply (dsorted_valid (ctxL (k_ctx k))); auto.
Qed.

Lemma iterate_ok {A} k (fn : A -> rng -> txnid -> A * bool) a : lkr_ok k -> sticky fn ->
  exists k', lkr_iterate kcmp k fn a =
    (fold_left (fold_fn fn) (filter (ovl (k_rng k)) (kelems k)) a, k') /\
    lkr_ok k' /\ kelems k' = kelems k /\ k_rng k' = k_rng k /\ k_ctx k' = k_ctx k /\
    elems (k_sub k') = elems (k_sub k).
Proof.
  intros Hk Hst. pose proof (filter_ctx k Hk) as Hf. destruct Hk as (Hs & Hp & Hv & Han).
  unfold lkr_iterate. rewrite <- Hf.
  assert (Hs' : dsorted (elems (k_sub k))).
  { rewrite kelems_eq in Hs. apply dsorted_app in Hs as (_ & Hs & _).
    apply dsorted_app in Hs as (Hs & _). auto. }
  destruct (traverse_ok (k_rng k) fn Hv Hst (k_sub k) a Hs') as [H1 H2].
  destruct (traverse kcmp (k_rng k) fn (k_sub k) a) as [a' s]. cbn [fst snd] in *.
  exists (Lkr (k_ctx k) s (k_rng k)). rewrite H1. split; [reflexivity|].
  assert (He : kelems (Lkr (k_ctx k) s (k_rng k)) = kelems k).
  { rewrite !kelems_eq. cbn [k_ctx k_sub]. rewrite H2. reflexivity. }
  assert (Han' : anchored (Lkr (k_ctx k) s (k_rng k))).
  { unfold anchored in *. cbn [k_ctx k_sub k_rng]. rewrite H2. auto. }
  unfold lkr_ok. rewrite He. repeat split; auto; try apply Hs; apply Hp.
Qed.

(** Removing a lock that overlaps the range. *)
Lemma remove_ok k rg a b g x :
  lkr_ok k -> valid rg -> kelems k = a ++ (g, x) :: b -> req rg g ->
  ~ apart (k_rng k) g ->
  exists k', lkr_remove kcmp k rg = Some k' /\
    lkr_ok k' /\ kelems k' = a ++ b /\ k_rng k' = k_rng k /\ k_ctx k' = k_ctx k.
Proof.
  intros (Hs & Hp & Hv & Han) Hvg He Hq Hna.
  pose proof He as He0. rewrite kelems_eq in He0.
  assert (Hsub : exists a' b', elems (k_sub k) = a' ++ (g, x) :: b' /\
           a = ctxL (k_ctx k) ++ a' /\ b = b' ++ ctxR (k_ctx k)).
  { assert (Hin : In (g, x) (elems (k_sub k))).
    { assert (Hi : In (g, x) (ctxL (k_ctx k) ++ elems (k_sub k) ++ ctxR (k_ctx k))).
      { rewrite He0. apply in_or_app; cbn; auto. }
      apply in_app_or in Hi as [Hi|Hi].
      - exfalso. apply Hna. right. apply (proj1 Hp _ Hi).
      - apply in_app_or in Hi as [Hi|Hi]; auto.
        exfalso. apply Hna. left. apply (proj2 Hp _ Hi). }
    apply in_split in Hin as (a' & b' & Hin). rewrite Hin in He0.
    rewrite <- app_assoc in He0. cbn in He0. rewrite app_assoc in He0.
    rewrite He in Hs. destruct (split_unique _ _ _ _ _ Hs He0) as [E1 E2].
    exists a', b'. auto. }
  destruct Hsub as (a' & b' & Es & -> & ->).
  assert (Hs' : dsorted (elems (k_sub k))).
  { rewrite kelems_eq in Hs. apply dsorted_app in Hs as (_ & Hs & _).
    apply dsorted_app in Hs as (Hs & _). auto. }
  unfold lkr_remove.
  destruct (is_E (k_sub k)) eqn:EE.
  { destruct (k_sub k); [|discriminate]. destruct a'; discriminate. }
  cbn [negb].
  destruct (tree_remove_ok rg Hvg (k_sub k) a' b' g x Hs' Es Hq) as (s' & -> & Es').
  assert (Hg : negb (is_E s') || is_nil (k_ctx k) = true).
  { destruct s' as [|]; auto. cbn. symmetry in Es'. apply app_eq_nil in Es' as [-> ->].
    destruct Han as [->|(e & Hi & Ha)]; auto. rewrite Es in Hi. destruct Hi as [<-|[]].
    exfalso. apply Hna. exact Ha. }
  rewrite Hg. eexists; split; [reflexivity|].
  assert (Han' : anchored (Lkr (k_ctx k) s' (k_rng k))).
  { unfold anchored in *. cbn [k_ctx k_sub k_rng]. destruct Han as [H0|(e & Hi & Ha)]; auto.
    right. exists e. split; auto. rewrite Es'. rewrite Es in Hi.
    apply in_app_or in Hi as [Hi|[<-|Hi]]; [apply in_or_app; auto| |apply in_or_app; auto].
    exfalso. apply Hna. exact Ha. }
  assert (Hk : kelems (Lkr (k_ctx k) s' (k_rng k)) = (ctxL (k_ctx k) ++ a') ++ b' ++ ctxR (k_ctx k)).
  { rewrite kelems_eq. cbn [k_ctx k_sub]. rewrite Es', <- !app_assoc. reflexivity. }
  unfold lkr_ok. rewrite Hk. cbn [k_ctx k_rng].
  refine (conj (conj _ (conj Hp (conj Hv Han'))) (conj eq_refl (conj eq_refl eq_refl))).
  rewrite He in Hs. apply dsorted_app in Hs as (H1 & H2 & H3).
  apply dsorted_cons in H2 as (_ & H2 & _).
  apply dsorted_app. split; auto. split; auto. intros y z Hy Hz. apply H3; cbn; auto.
Qed.

(** Inserting a lock that contains the range and is apart from all others. *)
Lemma insert_ok k rg x :
  lkr_ok k -> valid rg -> (forall e, In e (kelems k) -> apart rg (fst e)) ->
  ~ apart (k_rng k) rg ->
  exists k' a b, lkr_insert kcmp k rg x = Some k' /\
    lkr_ok k' /\ kelems k = a ++ b /\ kelems k' = a ++ (rg, x) :: b /\
    k_rng k' = k_rng k /\ k_ctx k' = k_ctx k.
Proof.
  intros (Hs & Hp & Hv & Han) Hvg Hap Hna.
  assert (Hroot : k_sub k = E -> k_ctx k = []).
  { intros HE. destruct Han as [H|(e & Hi & _)]; auto. rewrite HE in Hi. destruct Hi. }
  assert (Hfin : forall a b s', kelems k = a ++ b ->
     kelems (Lkr (k_ctx k) s' (k_rng k)) = a ++ (rg, x) :: b ->
     anchored (Lkr (k_ctx k) s' (k_rng k)) ->
     (forall e, In e a -> rlt (fst e) rg) -> (forall e, In e b -> rlt rg (fst e)) ->
     lkr_ok (Lkr (k_ctx k) s' (k_rng k))).
  { intros a b s' H1 H2 Han' H3 H4. unfold lkr_ok. rewrite H2. refine (conj _ (conj Hp (conj Hv Han'))).
    rewrite H1 in Hs. apply dsorted_app in Hs as (S1 & S2 & S3).
    apply dsorted_app. split; auto. split.
    - apply dsorted_cons. split; auto.
    - intros y z Hy [<-|Hz]; auto. apply H3; auto. }
  unfold lkr_insert. destruct (k_sub k) as [|dl l g y dr r] eqn:Ek.
  - assert (Hc := Hroot eq_refl).
    eexists _, [], []. split; [reflexivity|].
    assert (K0 : kelems k = []) by (rewrite kelems_eq, Ek, Hc; auto).
    split; [|split; [auto|split; [|auto]]].
    + apply (Hfin [] []); auto; try easy.
      * rewrite kelems_eq. cbn [k_ctx k_sub]. rewrite Hc. auto.
      * left. exact Hc.
    + rewrite kelems_eq. cbn [k_ctx k_sub]. rewrite Hc. auto.
  - rewrite <- Ek in *. assert (Hne : k_sub k <> E) by (rewrite Ek; easy).
    assert (Hs' : dsorted (elems (k_sub k))).
    { pose proof Hs as Hs1. rewrite kelems_eq in Hs1. apply dsorted_app in Hs1 as (_ & Hs1 & _).
      apply dsorted_app in Hs1 as (Hs1 & _). auto. }
    destruct (tree_insert_ok rg x Hvg (size (k_sub k)) (k_sub k)) as (s' & a & b & H1 & E1 & E2 & E3 & E4); auto.
    { intros e He. apply Hap. rewrite kelems_eq. apply in_or_app. right. apply in_or_app. auto. }
    rewrite H1.
    assert (A : forall e, In e (ctxL (k_ctx k)) -> rlt (fst e) rg).
    { intros e He. destruct (Hap e) as [Hc|Hc]; auto.
      - rewrite kelems_eq. apply in_or_app; auto.
      - exfalso. apply Hna. right.
        assert (Hve : valid (fst e)).
        { apply (dsorted_valid _ e Hs). rewrite kelems_eq. apply in_or_app; auto. }
        eapply rlt_trans; [exact Hve|exact Hc|]. apply (proj1 Hp e He). }
    assert (B : forall e, In e (ctxR (k_ctx k)) -> rlt rg (fst e)).
    { intros e He. destruct (Hap e) as [Hc|Hc]; auto.
      - rewrite kelems_eq. apply in_or_app; right; apply in_or_app; auto.
      - exfalso. apply Hna. left.
        assert (Hve : valid (fst e)).
        { apply (dsorted_valid _ e Hs). rewrite kelems_eq. apply in_or_app; right; apply in_or_app; auto. }
        eapply rlt_trans; [exact Hve| |exact Hc]. apply (proj2 Hp e He). }
    assert (K1 : kelems k = (ctxL (k_ctx k) ++ a) ++ b ++ ctxR (k_ctx k)).
    { rewrite kelems_eq, E1, <- !app_assoc. reflexivity. }
    assert (K2 : kelems (Lkr (k_ctx k) s' (k_rng k)) = (ctxL (k_ctx k) ++ a) ++ (rg, x) :: b ++ ctxR (k_ctx k)).
    { rewrite kelems_eq. cbn [k_ctx k_sub]. rewrite E2, <- !app_assoc. reflexivity. }
    eexists _, (ctxL (k_ctx k) ++ a), (b ++ ctxR (k_ctx k)). split; [reflexivity|].
    split; [|split; [exact K1|split; [exact K2|auto]]].
    assert (Han' : anchored (Lkr (k_ctx k) s' (k_rng k))).
    { unfold anchored in *. cbn [k_ctx k_sub k_rng]. destruct Han as [H0|(e & Hi & He)]; auto.
      right. exists e. split; auto. rewrite E2. rewrite E1 in Hi.
      apply in_app_or in Hi as [Hi|Hi]; apply in_or_app; cbn; auto. }
    apply (Hfin _ _ _ K1 K2 Han').
    + intros e He. apply in_app_or in He as [He|He]; auto.
    + intros e He. apply in_app_or in He as [He|He]; auto.
Qed.

End Ord.
