(** The hole tree: what the operations do to the list of holes in order, to the labels
    and to the red-black shape. *)
From Verif Require Import Base MhsModel.
Open Scope N_scope.

Fixpoint holes (t : tree) : list hole :=
  match t with E => [] | T _ l h _ _ r => holes l ++ h :: holes r end.
Fixpoint lefts (p : path) : list hole :=
  match p with
  | [] => []
  | FL _ _ _ _ _ :: p' => lefts p'
  | FR _ l h _ _ :: p' => lefts p' ++ holes l ++ [h]
  end.
Fixpoint rights (p : path) : list hole :=
  match p with
  | [] => []
  | FL _ h _ _ r :: p' => h :: holes r ++ rights p'
  | FR _ _ _ _ _ :: p' => rights p'
  end.

Lemma holes_plug : forall p t, holes (plug t p) = lefts p ++ holes t ++ rights p.
Proof.
  induction p as [|f p IH]; intros t; cbn [plug lefts rights].
  - now rewrite app_nil_r.
  - rewrite IH. destruct f; cbn [node_of holes lefts rights]; rewrite <- ?app_assoc; cbn [app]; auto.
Qed.

Lemma holes_set_color c t : holes (set_color c t) = holes t.
Proof. destruct t; auto. Qed.

(** Red-black shape: equal black heights, no red node under a red node. *)
Inductive rb : tree -> nat -> Prop :=
| rbE : rb E 0
| rbR l h lm rm r n : rb l n -> rb r n -> is_red l = false -> is_red r = false -> rb (T Red l h lm rm r) n
| rbB l h lm rm r n : rb l n -> rb r n -> rb (T Black l h lm rm r) (S n).

Fixpoint ctx (p : path) (red : bool) (n : nat) : Prop :=
  match p with
  | [] => red = false
  | FL c _ _ _ s :: p' | FR c s _ _ _ :: p' =>
    rb s n /\ match c with
              | Red => red = false /\ is_red s = false /\ ctx p' true n
              | Black => ctx p' false (S n)
              end
  end.

Lemma ctx_weak p n : ctx p true n -> ctx p false n.
Proof. destruct p as [|[[]|[]] p]; cbn; try easy; intuition congruence. Qed.

Lemma ctx_plug : forall p t n, rb t n -> ctx p (is_red t) n ->
  (exists n', rb (plug t p) n') /\ is_red (plug t p) = false.
Proof.
  induction p as [|f p IH]; intros t n R C; cbn [plug].
  - cbn in C. eauto.
  - destruct f as [c h lm rm s|c s h lm rm]; destruct c; cbn in C; cbn [node_of].
    + destruct C as (Rs & C1 & C2 & C3). apply (IH _ n); [constructor; auto|exact C3].
    + destruct C as (Rs & C). apply (IH _ (S n)); [constructor; auto|exact C].
    + destruct C as (Rs & C1 & C2 & C3). apply (IH _ n); [constructor; auto|exact C3].
    + destruct C as (Rs & C). apply (IH _ (S n)); [constructor; auto|exact C].
Qed.

Lemma rb_black t n : rb t n -> is_red t = true -> rb (set_black t) (S n).
Proof. intros R H; destruct R; cbn in *; try discriminate. constructor; auto. Qed.
Lemma rb_black_id t : is_red t = false -> set_black t = t.
Proof. destruct t as [|[]]; cbn; congruence. Qed.
Lemma rb_set_black t n : rb t n -> exists n', rb (set_black t) n'.
Proof. intros R; destruct R; cbn; eexists; constructor; eauto. Qed.
Lemma set_black_black t : is_red (set_black t) = false.
Proof. destruct t; auto. Qed.

Section Labels.
Variable al : N.

Definition esz (h : hole) : N := match eff al h with Some e => e | None => 0 end.
Definition okh (h : hole) : Prop := eff al h <> None.
Definition top3 (lm rm : N) (h : hole) : N := N.max (N.max lm rm) (esz h).
Definition mh (t : tree) : N := match t with E => 0 | T _ _ h lm rm _ => top3 lm rm h end.

Fixpoint wl (t : tree) : Prop :=
  match t with
  | E => True
  | T _ l h lm rm r => lm = mh l /\ rm = mh r /\ okh h /\ wl l /\ wl r
  end.
Definition wlf (f : frame) : Prop :=
  match f with
  | FL _ h _ rm r => rm = mh r /\ okh h /\ wl r
  | FR _ l h lm _ => lm = mh l /\ okh h /\ wl l
  end.
Fixpoint wlp (p : path) (m : N) : Prop :=
  match p with
  | [] => True
  | f :: p' => label f = m /\ wlf f /\ wlp p' (top3 (f_lm f) (f_rm f) (f_hole f))
  end.

Lemma sub_mhs_ok lm rm h : okh h -> sub_mhs al lm rm h = Some (top3 lm rm h).
Proof. unfold okh, sub_mhs, top3, esz. destruct (eff al h); congruence. Qed.
Lemma mhs_ok t : wl t -> mhs al t = Some (mh t).
Proof. destruct t; cbn; auto. intros (_ & _ & H & _). now apply sub_mhs_ok. Qed.

Lemma wl_color c t : wl (set_color c t) <-> wl t.
Proof. destruct t; cbn; tauto. Qed.
Lemma mh_color c t : mh (set_color c t) = mh t.
Proof. destruct t; auto. Qed.

Lemma wl_node t f : wl t -> wlf f -> label f = mh t -> wl (node_of t f).
Proof. destruct f; cbn; intuition. Qed.
Lemma mh_node t f : mh (node_of t f) = top3 (f_lm f) (f_rm f) (f_hole f).
Proof. destruct f; auto. Qed.
Lemma wl_plug : forall p t, wl t -> wlp p (mh t) -> wl (plug t p).
Proof.
  induction p as [|f p IH]; intros t W P; cbn [plug]; auto.
  cbn [wlp] in P. destruct P as (L & F & P). apply IH.
  - apply wl_node; auto.
  - now rewrite mh_node.
Qed.

Definition ok (t : tree) : Prop := wl t /\ (exists n, rb t n) /\ is_red t = false.

Lemma ok_E : ok E.
Proof. repeat split; auto. exists O; constructor. Qed.

(** The same path up to labels. *)
Definition same_f (f g : frame) : Prop :=
  match f, g with
  | FL c h _ _ r, FL c' h' _ _ r' => c = c' /\ h = h' /\ r = r'
  | FR c l h _ _, FR c' l' h' _ _ => c = c' /\ h = h' /\ l = l'
  | _, _ => False
  end.
Definition same (p q : path) : Prop := Forall2 same_f p q.

Lemma same_f_refl f : same_f f f.
Proof. destruct f; cbn; auto. Qed.
Lemma same_refl p : same p p.
Proof. induction p; constructor; auto using same_f_refl. Qed.
Lemma same_trans p q r : same p q -> same q r -> same p r.
Proof.
  intros H; revert r; induction H as [|f g p q Hf Hp IH]; intros r H2; inversion H2; subst; constructor.
  - destruct f, g, y; cbn in *; try tauto; intuition congruence.
  - apply IH. assumption.
Qed.
Lemma same_lefts p q : same p q -> lefts q = lefts p.
Proof.
  induction 1 as [|f g p q Hf Hp IH]; auto.
  destruct f, g; cbn in *; try tauto. destruct Hf as (_ & -> & ->). now rewrite IH.
Qed.
Lemma same_rights p q : same p q -> rights q = rights p.
Proof.
  induction 1 as [|f g p q Hf Hp IH]; auto.
  destruct f, g; cbn in *; try tauto. destruct Hf as (_ & -> & ->). now rewrite IH.
Qed.
Lemma same_ctx p q : same p q -> forall b n, ctx p b n -> ctx q b n.
Proof.
  induction 1 as [|f g p q Hf Hp IH]; auto. intros b n.
  destruct f as [c ? ? ? ?|c ? ? ? ?], g; cbn in *; try tauto; destruct Hf as (<- & _ & <-); destruct c; intuition.
Qed.
(** The same up to labels and holes. *)
Definition shape_f (f g : frame) : Prop :=
  match f, g with
  | FL c _ _ _ r, FL c' _ _ _ r' => c = c' /\ r = r'
  | FR c l _ _ _, FR c' l' _ _ _ => c = c' /\ l = l'
  | _, _ => False
  end.
Definition shape (p q : path) : Prop := Forall2 shape_f p q.
Lemma same_f_shape f g : same_f f g -> shape_f f g.
Proof. destruct f, g; cbn; tauto. Qed.
Lemma same_shape p q : same p q -> shape p q.
Proof. induction 1; constructor; auto using same_f_shape. Qed.
Lemma shape_ctx p q : shape p q -> forall b n, ctx p b n -> ctx q b n.
Proof.
  induction 1 as [|f g p q Hf Hp IH]; auto. intros b n.
  destruct f as [c ? ? ? ?|c ? ? ? ?], g; cbn in *; try tauto; destruct Hf as (<- & <-); destruct c; intuition.
Qed.
Lemma same_label f m : same_f f (set_label f m).
Proof. destruct f; cbn; auto. Qed.

(** RecalculateMhs. *)
Lemma recalc_ok : forall p lm rm h m0, okh h -> wlp p m0 ->
  exists p', recalc al lm rm h p = Some p' /\ wlp p' (top3 lm rm h) /\ same p p'.
Proof.
  induction p as [|f p IH]; intros lm rm h m0 Hh W; cbn [recalc].
  - exists []. repeat split; auto using same_refl.
  - cbn [wlp] in W. destruct W as (L & F & W). rewrite (sub_mhs_ok _ _ _ Hh).
    destruct (N.eqb_spec (label f) (top3 lm rm h)) as [E0|E0].
    + exists (f :: p). cbn [wlp]. repeat split; auto using same_refl.
    + assert (Hf : okh (f_hole (set_label f (top3 lm rm h)))) by (destruct f; cbn in F |- *; tauto).
      destruct (IH (f_lm (set_label f (top3 lm rm h))) (f_rm (set_label f (top3 lm rm h)))
                  (f_hole (set_label f (top3 lm rm h))) _ Hf W) as (p' & -> & W' & S').
      eexists; split; [reflexivity|]. split.
      * cbn [wlp]. split; [|split]; [destruct f; reflexivity|destruct f; cbn in *; auto|exact W'].
      * constructor; auto using same_label.
Qed.

(** A list of frames whose labels are right from the bottom to the top. *)
Fixpoint seg (p : path) (m m' : N) : Prop :=
  match p with
  | [] => m = m'
  | f :: p' => label f = m /\ wlf f /\ seg p' (top3 (f_lm f) (f_rm f) (f_hole f)) m'
  end.
Lemma seg_app p q m : wlp (p ++ q) m <-> exists m', seg p m m' /\ wlp q m'.
Proof.
  revert m; induction p as [|f p IH]; intros m; cbn [app seg wlp].
  - split; [intros H; exists m; auto|intros (m' & -> & H); auto].
  - rewrite IH. split.
    + intros (? & ? & m' & ? & ?). exists m'. tauto.
    + intros (m' & (? & ? & ?) & ?). repeat split; auto. exists m'; auto.
Qed.

(** RecalculateMhs of a node when the label of a second node above is not right either:
    a recalculation of that one too makes all labels right. *)
Lemma recalc_two : forall p1 f p2 lm rm h m0 m1 m2, okh h -> seg p1 m0 m1 -> label f = m1 -> wlf f ->
  wlp p2 m2 ->
  exists p1' f' p2', recalc al lm rm h (p1 ++ f :: p2) = Some (p1' ++ f' :: p2') /\
    length p1' = length p1 /\ same p1 p1' /\ same_f f f' /\ same p2 p2' /\ wlf f' /\
    seg p1' (top3 lm rm h) (label f') /\ exists m2', wlp p2' m2'.
Proof.
  induction p1 as [|g p1 IH]; intros f p2 lm rm h m0 m1 m2 Hh Sg L F W; cbn [app recalc].
  - rewrite (sub_mhs_ok _ _ _ Hh).
    destruct (N.eqb_spec (label f) (top3 lm rm h)) as [E0|E0].
    + exists [], f, p2. cbn. repeat split; eauto using same_refl, same_f_refl.
    + destruct (recalc_ok p2 (f_lm (set_label f (top3 lm rm h))) (f_rm (set_label f (top3 lm rm h)))
                  (f_hole (set_label f (top3 lm rm h))) m2) as (p' & -> & W' & S'); auto.
      { destruct f; cbn in F |- *; tauto. }
      exists [], (set_label f (top3 lm rm h)), p'. cbn [app length seg].
      repeat split; auto using same_label, same_refl.
      * destruct f; cbn in *; auto.
      * destruct f; reflexivity.
      * eauto.
  - rewrite (sub_mhs_ok _ _ _ Hh). cbn [seg] in Sg. destruct Sg as (L1 & F1 & Sg).
    destruct (N.eqb_spec (label g) (top3 lm rm h)) as [E0|E0].
    + exists (g :: p1), f, p2. cbn [app length seg].
      repeat split; eauto using same_refl, same_f_refl. congruence.
    + assert (Hg : okh (f_hole (set_label g (top3 lm rm h)))) by (destruct g; cbn in F1 |- *; tauto).
      destruct (IH f p2 (f_lm (set_label g (top3 lm rm h))) (f_rm (set_label g (top3 lm rm h)))
                  (f_hole (set_label g (top3 lm rm h))) _ m1 m2 Hg Sg L F W)
        as (p1' & f' & p2' & -> & Hl & S1 & S2 & S3 & F' & Sg' & E2).
      exists (set_label g (top3 lm rm h) :: p1'), f', p2'. cbn [app length seg].
      repeat split; auto.
      * constructor; auto using same_label.
      * destruct g; reflexivity.
      * destruct g; cbn in *; auto.
Qed.

Lemma recalc_at_app : forall p1 f p2,
  recalc_at al (length p1) (p1 ++ f :: p2) =
  match recalc al (f_lm f) (f_rm f) (f_hole f) p2 with Some p2' => Some (p1 ++ f :: p2') | None => None end.
Proof.
  induction p1 as [|g p1 IH]; intros f p2; cbn [length app recalc_at].
  - destruct (recalc _ _ _ _ p2); auto.
  - rewrite IH. destruct (recalc _ _ _ _ p2); auto.
Qed.

(** InsertFixup. *)
Ltac wl_split := repeat match goal with
  | H : _ /\ _ |- _ => destruct H
  end.

Lemma finish_black t p n : rb t n -> is_red t = false -> ctx p false n -> wl t -> wlp p (mh t) ->
  ok (set_black (plug t p)) /\ holes (set_black (plug t p)) = lefts p ++ holes t ++ rights p.
Proof.
  intros R B C W P. rewrite <- B in C. destruct (ctx_plug _ _ _ R C) as ((n' & R') & B').
  rewrite (rb_black_id _ B'). split; [|apply holes_plug].
  split; [|split]; eauto using wl_plug.
Qed.

Ltac listeq := unfold set_black; cbn [holes lefts rights set_color]; rewrite ?holes_set_color;
  repeat (rewrite <- ?app_assoc; cbn [app]); reflexivity.

Lemma insert_fixup_ok : forall k p t n, (length p <= k)%nat -> is_red t = true -> rb t n -> ctx p false n ->
  wl t -> wlp p (mh t) ->
  exists t', insert_fixup al t p = Some t' /\ ok t' /\ holes t' = lefts p ++ holes t ++ rights p.
Proof.
  induction k as [|k IH]; intros p t n Hk Ht R C W P.
  { destruct p; [|cbn in Hk; lia]. cbn [insert_fixup]. eexists; split; [reflexivity|]. split.
    - split; [now apply wl_color|]. split; [eauto using rb_black|apply set_black_black].
    - cbn [lefts rights app]. unfold set_black. now rewrite holes_set_color, app_nil_r. }
  destruct p as [|f1 p1].
  { cbn [insert_fixup]. eexists; split; [reflexivity|]. split.
    - split; [now apply wl_color|]. split; [eauto using rb_black|apply set_black_black].
    - cbn [lefts rights app]. unfold set_black. now rewrite holes_set_color, app_nil_r. }
  destruct f1 as [c1 h1 lm1 rm1 r1|c1 l1 h1 lm1 rm1].
  - destruct c1; cbn [ctx] in C.
    + destruct C as (R1 & _ & B1 & C). destruct p1 as [|f2 p2]; [discriminate C|].
      destruct f2 as [c2 h2 lm2 rm2 u|c2 u h2 lm2 rm2]; destruct c2; cbn [ctx] in C; destruct C as (Ru & C);
        try (destruct C; discriminate).
      * cbn [insert_fixup]. cbn [wlp label wlf f_lm f_rm f_hole] in P.
        destruct P as (-> & (-> & O1 & W1) & -> & (-> & O2 & Wu) & P).
        destruct (is_red u) eqn:Bu.
        -- destruct (IH p2 (T Red (T Black t h1 (mh t) (mh r1) r1) h2 (top3 (mh t) (mh r1) h1) (mh u) (set_black u)) (S n)) as (t' & -> & H1 & H2); auto.
           { cbn in Hk; lia. }
           { constructor; auto using rb_black, set_black_black. constructor; auto. }
           { cbn [wl mh]. unfold set_black. rewrite mh_color, wl_color. tauto. }
           eexists; split; [reflexivity|]. split; auto. rewrite H2. listeq.
        -- cbn [right_rotate]. rewrite sub_mhs_ok by auto.
           edestruct finish_black as (H1 & H2); [| | |idtac|idtac|eexists; split; [reflexivity|]; split; [exact H1|rewrite H2; listeq]].
           ++ constructor; [exact R|]. constructor; auto.
           ++ reflexivity.
           ++ exact C.
           ++ cbn [wl mh]. tauto.
           ++ cbn [mh]. replace (top3 (mh t) (top3 (mh r1) (mh u) h2) h1) with (top3 (top3 (mh t) (mh r1) h1) (mh u) h2); auto.
              unfold top3; lia.
      * cbn [insert_fixup]. cbn [wlp label wlf f_lm f_rm f_hole] in P.
        destruct P as (-> & (-> & O1 & W1) & -> & (-> & O2 & Wu) & P).
        destruct (is_red u) eqn:Bu.
        -- destruct (IH p2 (T Red (set_black u) h2 (mh u) (top3 (mh t) (mh r1) h1) (T Black t h1 (mh t) (mh r1) r1)) (S n)) as (t' & -> & H1 & H2); auto.
           { cbn in Hk; lia. }
           { constructor; auto using rb_black, set_black_black. constructor; auto. }
           { cbn [wl mh]. unfold set_black. rewrite mh_color, wl_color. tauto. }
           eexists; split; [reflexivity|]. split; auto. rewrite H2. listeq.
        -- destruct t as [|[] tl th tlm trm tr]; try discriminate Ht. inversion R; subst.
           cbn [wl] in W. destruct W as (-> & -> & Oh & Wl & Wr). cbn [mh] in *.
           cbn [right_rotate]. rewrite sub_mhs_ok by auto. cbn [set_black set_color left_rotate].
           rewrite sub_mhs_ok by auto.
           edestruct finish_black as (H1 & H2); [| | |idtac|idtac|eexists; split; [reflexivity|]; split; [exact H1|rewrite H2; listeq]].
           ++ constructor; constructor; eassumption.
           ++ reflexivity.
           ++ exact C.
           ++ cbn [wl mh]. tauto.
           ++ cbn [mh]. eapply eq_ind; [exact P|]. unfold top3; lia.
    + cbn [insert_fixup]. eexists; split; [reflexivity|]. destruct C as (R1 & C).
      assert (Cx : ctx (FL Black h1 lm1 rm1 r1 :: p1) (is_red t) n) by (cbn; auto).
      destruct (ctx_plug _ _ _ R Cx) as (R' & B'). rewrite (rb_black_id _ B').
      split; [split; [now apply wl_plug|split; auto]|apply holes_plug].
  - destruct c1; cbn [ctx] in C.
    + destruct C as (R1 & _ & B1 & C). destruct p1 as [|f2 p2]; [discriminate C|].
      destruct f2 as [c2 h2 lm2 rm2 u|c2 u h2 lm2 rm2]; destruct c2; cbn [ctx] in C; destruct C as (Ru & C);
        try (destruct C; discriminate).
      * cbn [insert_fixup]. cbn [wlp label wlf f_lm f_rm f_hole] in P.
        destruct P as (-> & (-> & O1 & W1) & -> & (-> & O2 & Wu) & P).
        destruct (is_red u) eqn:Bu.
        -- destruct (IH p2 (T Red (T Black l1 h1 (mh l1) (mh t) t) h2 (top3 (mh l1) (mh t) h1) (mh u) (set_black u)) (S n)) as (t' & -> & H1 & H2); auto.
           { cbn in Hk; lia. }
           { constructor; auto using rb_black, set_black_black. constructor; auto. }
           { cbn [wl mh]. unfold set_black. rewrite mh_color, wl_color. tauto. }
           eexists; split; [reflexivity|]. split; auto. rewrite H2. listeq.
        -- destruct t as [|[] tl th tlm trm tr]; try discriminate Ht. inversion R; subst.
           cbn [wl] in W. destruct W as (-> & -> & Oh & Wl & Wr). cbn [mh] in *.
           cbn [left_rotate]. rewrite sub_mhs_ok by auto. cbn [set_black set_color right_rotate].
           rewrite sub_mhs_ok by auto.
           edestruct finish_black as (H1 & H2); [| | |idtac|idtac|eexists; split; [reflexivity|]; split; [exact H1|rewrite H2; listeq]].
           ++ constructor; constructor; eassumption.
           ++ reflexivity.
           ++ exact C.
           ++ cbn [wl mh]. tauto.
           ++ cbn [mh]. eapply eq_ind; [exact P|]. unfold top3; lia.
      * cbn [insert_fixup]. cbn [wlp label wlf f_lm f_rm f_hole] in P.
        destruct P as (-> & (-> & O1 & W1) & -> & (-> & O2 & Wu) & P).
        destruct (is_red u) eqn:Bu.
        -- destruct (IH p2 (T Red (set_black u) h2 (mh u) (top3 (mh l1) (mh t) h1) (T Black l1 h1 (mh l1) (mh t) t)) (S n)) as (t' & -> & H1 & H2); auto.
           { cbn in Hk; lia. }
           { constructor; auto using rb_black, set_black_black. constructor; auto. }
           { cbn [wl mh]. unfold set_black. rewrite mh_color, wl_color. tauto. }
           eexists; split; [reflexivity|]. split; auto. rewrite H2. listeq.
        -- cbn [left_rotate]. rewrite sub_mhs_ok by auto.
           edestruct finish_black as (H1 & H2); [| | |idtac|idtac|eexists; split; [reflexivity|]; split; [exact H1|rewrite H2; listeq]].
           ++ constructor; [|exact R]. constructor; auto.
           ++ reflexivity.
           ++ exact C.
           ++ cbn [wl mh]. tauto.
           ++ cbn [mh]. eapply eq_ind; [exact P|]. unfold top3; lia.
    + cbn [insert_fixup]. eexists; split; [reflexivity|]. destruct C as (R1 & C).
      assert (Cx : ctx (FR Black l1 h1 lm1 rm1 :: p1) (is_red t) n) by (cbn; auto).
      destruct (ctx_plug _ _ _ R Cx) as (R' & B'). rewrite (rb_black_id _ B').
      split; [split; [now apply wl_plug|split; auto]|apply holes_plug].
Qed.

(** RawRemoveFixup. *)
Definition redc (c : color) : bool := match c with Red => true | Black => false end.
Definition bheight (c : color) (n : nat) : nat := match c with Red => n | Black => S n end.

Lemma not_red_black t : is_red t = false -> t <> E -> exists l h lm rm r, t = T Black l h lm rm r.
Proof. destruct t as [|[]]; cbn; try congruence; eauto 8. Qed.

Lemma rb_Bi l h lm rm r n : rb (T Black l h lm rm r) (S n) -> rb l n /\ rb r n.
Proof. intros R; inversion R; auto. Qed.
Lemma rb_Ri l h lm rm r n : rb (T Red l h lm rm r) n -> rb l n /\ rb r n /\ is_red l = false /\ is_red r = false.
Proof. intros R; inversion R; auto. Qed.

Lemma wl_T c l h lm rm r : wl (T c l h lm rm r) -> lm = mh l /\ rm = mh r /\ okh h /\ wl l /\ wl r.
Proof. auto. Qed.

Lemma fix_left_ok t c h other n : is_red t = false -> rb t n -> rb other (S n) -> is_red other = false ->
  okh h -> wl t -> wl other ->
  exists t' again, fix_left al t c h (mh t) (mh other) other = Some (t', again) /\
    holes t' = holes t ++ h :: holes other /\ wl t' /\ mh t' = top3 (mh t) (mh other) h /\
    is_red t' = redc c /\
    if again : bool then rb (set_black t') (S n) else rb t' (bheight c (S n)).
Proof.
  intros Bt Rt Ro Bo Oh Wt Wo.
  destruct other as [|[] ol oh olm orm orr]; [inversion Ro|discriminate|].
  destruct (rb_Bi _ _ _ _ _ _ Ro) as (Rol & Ror).
  apply wl_T in Wo. destruct Wo as (-> & -> & Ooh & Wol & Wor).
  cbn [fix_left]. destruct (is_red ol) eqn:Bol; destruct (is_red orr) eqn:Bor; cbn [negb andb].
  1,3: destruct orr as [|[] rl rh rlm rrm rr]; try discriminate; destruct (rb_Ri _ _ _ _ _ _ Ror) as (? & ? & ? & ?);
    cbn [set_black set_color left_rotate]; rewrite sub_mhs_ok by auto;
    eexists _, _; split; [reflexivity|]; cbn [set_black set_color holes];
    (split; [repeat (rewrite <- ?app_assoc; cbn [app]); reflexivity|]);
    cbn [wl mh] in *; (split; [tauto|]); (split; [unfold top3; lia|]); (split; [destruct c; reflexivity|]);
    cbn [redc bheight]; destruct c; repeat (constructor; auto).
  - destruct ol as [|[] ll lh llm lrm lr]; try discriminate; destruct (rb_Ri _ _ _ _ _ _ Rol) as (? & ? & ? & ?).
    apply wl_T in Wol. destruct Wol as (-> & -> & ? & ? & ?).
    cbn [set_black set_color right_rotate]. rewrite sub_mhs_ok by auto.
    cbn [left_rotate set_color]. rewrite sub_mhs_ok by auto.
    eexists _, _; split; [reflexivity|]; cbn [set_black set_color holes].
    split; [repeat (rewrite <- ?app_assoc; cbn [app]); reflexivity|].
    cbn [wl mh] in *. split; [tauto|]. split; [unfold top3; lia|]. split; [destruct c; reflexivity|].
    cbn [redc bheight]; destruct c; repeat (constructor; auto).
  - eexists _, _; split; [reflexivity|]; cbn [set_black set_color holes].
    split; [reflexivity|]. cbn [wl mh]. split; [tauto|]. split; [auto|]. split; [destruct c; reflexivity|].
    repeat (constructor; auto).
Qed.

Lemma fix_right_ok t c h other n : is_red t = false -> rb t n -> rb other (S n) -> is_red other = false ->
  okh h -> wl t -> wl other ->
  exists t' again, fix_right al t c other h (mh other) (mh t) = Some (t', again) /\
    holes t' = holes other ++ h :: holes t /\ wl t' /\ mh t' = top3 (mh other) (mh t) h /\
    is_red t' = redc c /\
    if again : bool then rb (set_black t') (S n) else rb t' (bheight c (S n)).
Proof.
  intros Bt Rt Ro Bo Oh Wt Wo.
  destruct other as [|[] ol oh olm orm orr]; [inversion Ro|discriminate|].
  destruct (rb_Bi _ _ _ _ _ _ Ro) as (Rol & Ror).
  apply wl_T in Wo. destruct Wo as (-> & -> & Ooh & Wol & Wor).
  cbn [fix_right]. destruct (is_red ol) eqn:Bol; destruct (is_red orr) eqn:Bor; cbn [negb andb].
  1,2: destruct ol as [|[] rl rh rlm rrm rr]; try discriminate; destruct (rb_Ri _ _ _ _ _ _ Rol) as (? & ? & ? & ?);
    cbn [set_black set_color right_rotate]; rewrite sub_mhs_ok by auto;
    eexists _, _; split; [reflexivity|]; cbn [set_black set_color holes];
    (split; [repeat (rewrite <- ?app_assoc; cbn [app]); reflexivity|]);
    cbn [wl mh] in *; (split; [tauto|]); (split; [unfold top3; lia|]); (split; [destruct c; reflexivity|]);
    cbn [redc bheight]; destruct c; repeat (constructor; auto).
  - destruct orr as [|[] ll lh llm lrm lr]; try discriminate; destruct (rb_Ri _ _ _ _ _ _ Ror) as (? & ? & ? & ?).
    apply wl_T in Wor. destruct Wor as (-> & -> & ? & ? & ?).
    cbn [set_black set_color left_rotate]. rewrite sub_mhs_ok by auto.
    cbn [right_rotate set_color].
    destruct ol as [|[] kl kh klm krm kr]; try discriminate; cbn [set_black set_color right_rotate]; rewrite sub_mhs_ok by auto.
    + eexists _, _; split; [reflexivity|]; cbn [set_black set_color holes].
      split; [repeat (rewrite <- ?app_assoc; cbn [app]); reflexivity|].
      cbn [wl mh] in *. split; [tauto|]. split; [unfold top3; lia|]. split; [destruct c; reflexivity|].
      cbn [redc bheight]; destruct c; repeat (constructor; auto).
    + eexists _, _; split; [reflexivity|]; cbn [set_black set_color holes].
      split; [repeat (rewrite <- ?app_assoc; cbn [app]); reflexivity|].
      cbn [wl mh] in *. split; [tauto|]. split; [unfold top3; lia|]. split; [destruct c; reflexivity|].
      cbn [redc bheight]; destruct c; repeat (constructor; auto).
  - eexists _, _; split; [reflexivity|]; cbn [set_black set_color holes].
    split; [reflexivity|]. cbn [wl mh]. split; [tauto|]. split; [auto|]. split; [destruct c; reflexivity|].
    repeat (constructor; auto).
Qed.

Lemma plug_ok t p n : rb t n -> ctx p (is_red t) n -> wl t -> wlp p (mh t) -> ok (plug t p).
Proof.
  intros R C W P. destruct (ctx_plug _ _ _ R C) as (R' & B'). split; [now apply wl_plug|auto].
Qed.
Lemma plug_black_ok t p n : rb t n -> ctx p (is_red t) n -> wl t -> wlp p (mh t) ->
  set_black (plug t p) = plug t p.
Proof. intros R C W P. apply rb_black_id. eapply ctx_plug; eauto. Qed.

Lemma remove_fixup_ok : forall p t n, (if is_red t then rb (set_black t) (S n) else rb t n) ->
  ctx p false (S n) -> wl t -> wlp p (mh t) ->
  exists t', remove_fixup al t p = Some t' /\ ok t' /\ holes t' = lefts p ++ holes t ++ rights p.
Proof.
  induction p as [|f p IH]; intros t n R C W P.
  - cbn [remove_fixup plug]. destruct (is_red t) eqn:Bt.
    + eexists; split; [reflexivity|]. split.
      * split; [now apply wl_color|]. split; [eauto|apply set_black_black].
      * cbn [lefts rights app]. unfold set_black. now rewrite holes_set_color, app_nil_r.
    + eexists; split; [reflexivity|]. rewrite (rb_black_id _ Bt). split.
      * split; [auto|]. split; eauto.
      * cbn [lefts rights app]. now rewrite app_nil_r.
  - cbn [remove_fixup]. destruct (is_red t) eqn:Bt.
    { eexists; split; [reflexivity|]. split.
      - eapply plug_ok; [exact R|rewrite set_black_black; exact C|now apply wl_color|].
        unfold set_black. now rewrite mh_color.
      - rewrite holes_plug. unfold set_black. now rewrite holes_set_color. }
    destruct f as [c h lm rm other|c other h lm rm].
    + cbn [wlp label wlf f_lm f_rm f_hole] in P. destruct P as (-> & (-> & Oh & Wo) & P).
      cbn [ctx] in C. destruct C as (Ro & C). destruct (is_red other) eqn:Bo.
      * destruct other as [|[] ol oh olm orm orr]; try discriminate.
        destruct (rb_Ri _ _ _ _ _ _ Ro) as (? & ? & ? & ?).
        apply wl_T in Wo. destruct Wo as (-> & -> & Ooh & Wol & Wor).
        rewrite sub_mhs_ok by auto.
        destruct c; [destruct C as (_ & C & _); discriminate C|].
        destruct (fix_left_ok t Red h ol n) as (t' & again & E1 & Eh & Wt' & Em & Bt' & Rt'); auto.
        rewrite E1. cbn [redc] in Bt'. cbn [mh] in P.
        assert (Px : wlp (FL Black oh (top3 (mh t) (mh ol) h) (mh orr) orr :: p) (mh t')).
        { cbn [wlp label wlf f_lm f_rm f_hole]. repeat split; auto. eapply eq_ind; [exact P|]. unfold top3; lia. }
        assert (Hh : lefts (FL Black oh (top3 (mh t) (mh ol) h) (mh orr) orr :: p) ++ holes t' ++
          rights (FL Black oh (top3 (mh t) (mh ol) h) (mh orr) orr :: p) =
          lefts (FL Black h (mh t) (mh (T Red ol oh (mh ol) (mh orr) orr)) (T Red ol oh (mh ol) (mh orr) orr) :: p) ++
          holes t ++ rights (FL Black h (mh t) (mh (T Red ol oh (mh ol) (mh orr) orr)) (T Red ol oh (mh ol) (mh orr) orr) :: p)).
        { rewrite Eh. listeq. }
        destruct again.
        -- eexists; split; [reflexivity|]. split.
           ++ eapply plug_ok; [exact Rt'|rewrite set_black_black; cbn [ctx]; auto|now apply wl_color|].
              unfold set_black. rewrite mh_color. exact Px.
           ++ rewrite holes_plug. unfold set_black. rewrite holes_set_color. exact Hh.
        -- eexists; split; [reflexivity|].
           assert (Cx : ctx (FL Black oh (top3 (mh t) (mh ol) h) (mh orr) orr :: p) (is_red t') (S n))
             by (rewrite Bt'; cbn [ctx]; auto).
           rewrite (plug_black_ok _ _ _ Rt' Cx Wt' Px). split.
           ++ eapply plug_ok; eauto.
           ++ rewrite holes_plug. exact Hh.
      * destruct (fix_left_ok t c h other n) as (t' & again & E1 & Eh & Wt' & Em & Bt' & Rt'); auto.
        rewrite E1. rewrite <- Em in P.
        assert (Hh : lefts p ++ holes t' ++ rights p =
          lefts (FL c h (mh t) (mh other) other :: p) ++ holes t ++ rights (FL c h (mh t) (mh other) other :: p)).
        { rewrite Eh. listeq. }
        destruct again.
        -- destruct c; cbn [redc] in Bt'.
           ++ destruct (IH t' n) as (t2 & -> & H1 & H2); auto.
              { rewrite Bt'. exact Rt'. }
              { apply ctx_weak. tauto. }
              eexists; split; [reflexivity|]. split; auto. rewrite H2. exact Hh.
           ++ destruct (IH t' (S n)) as (t2 & -> & H1 & H2); auto.
              { rewrite Bt'. now rewrite (rb_black_id _ Bt') in Rt'. }
              eexists; split; [reflexivity|]. split; auto. rewrite H2. exact Hh.
        -- eexists; split; [reflexivity|].
           assert (Cx : ctx p (is_red t') (bheight c (S n))).
           { rewrite Bt'. destruct c; cbn [redc bheight]; tauto. }
           rewrite (plug_black_ok _ _ _ Rt' Cx Wt' P). split.
           ++ eapply plug_ok; eauto.
           ++ rewrite holes_plug. exact Hh.
    + cbn [wlp label wlf f_lm f_rm f_hole] in P. destruct P as (-> & (-> & Oh & Wo) & P).
      cbn [ctx] in C. destruct C as (Ro & C). destruct (is_red other) eqn:Bo.
      * destruct other as [|[] ol oh olm orm orr]; try discriminate.
        destruct (rb_Ri _ _ _ _ _ _ Ro) as (? & ? & ? & ?).
        apply wl_T in Wo. destruct Wo as (-> & -> & Ooh & Wol & Wor).
        rewrite sub_mhs_ok by auto.
        destruct c; [destruct C as (_ & C & _); discriminate C|].
        destruct (fix_right_ok t Red h orr n) as (t' & again & E1 & Eh & Wt' & Em & Bt' & Rt'); auto.
        rewrite E1. cbn [redc] in Bt'. cbn [mh] in P.
        assert (Px : wlp (FR Black ol oh (mh ol) (top3 (mh orr) (mh t) h) :: p) (mh t')).
        { cbn [wlp label wlf f_lm f_rm f_hole]. repeat split; auto. eapply eq_ind; [exact P|]. unfold top3; lia. }
        assert (Hh : lefts (FR Black ol oh (mh ol) (top3 (mh orr) (mh t) h) :: p) ++ holes t' ++
          rights (FR Black ol oh (mh ol) (top3 (mh orr) (mh t) h) :: p) =
          lefts (FR Black (T Red ol oh (mh ol) (mh orr) orr) h (mh (T Red ol oh (mh ol) (mh orr) orr)) (mh t) :: p) ++
          holes t ++ rights (FR Black (T Red ol oh (mh ol) (mh orr) orr) h (mh (T Red ol oh (mh ol) (mh orr) orr)) (mh t) :: p)).
        { rewrite Eh. listeq. }
        destruct again.
        -- eexists; split; [reflexivity|]. split.
           ++ eapply plug_ok; [exact Rt'|rewrite set_black_black; cbn [ctx]; auto|now apply wl_color|].
              unfold set_black. rewrite mh_color. exact Px.
           ++ rewrite holes_plug. unfold set_black. rewrite holes_set_color. exact Hh.
        -- eexists; split; [reflexivity|].
           assert (Cx : ctx (FR Black ol oh (mh ol) (top3 (mh orr) (mh t) h) :: p) (is_red t') (S n))
             by (rewrite Bt'; cbn [ctx]; auto).
           rewrite (plug_black_ok _ _ _ Rt' Cx Wt' Px). split.
           ++ eapply plug_ok; eauto.
           ++ rewrite holes_plug. exact Hh.
      * destruct (fix_right_ok t c h other n) as (t' & again & E1 & Eh & Wt' & Em & Bt' & Rt'); auto.
        rewrite E1. rewrite <- Em in P.
        assert (Hh : lefts p ++ holes t' ++ rights p =
          lefts (FR c other h (mh other) (mh t) :: p) ++ holes t ++ rights (FR c other h (mh other) (mh t) :: p)).
        { rewrite Eh. listeq. }
        destruct again.
        -- destruct c; cbn [redc] in Bt'.
           ++ destruct (IH t' n) as (t2 & -> & H1 & H2); auto.
              { rewrite Bt'. exact Rt'. }
              { apply ctx_weak. tauto. }
              eexists; split; [reflexivity|]. split; auto. rewrite H2. exact Hh.
           ++ destruct (IH t' (S n)) as (t2 & -> & H1 & H2); auto.
              { rewrite Bt'. now rewrite (rb_black_id _ Bt') in Rt'. }
              eexists; split; [reflexivity|]. split; auto. rewrite H2. exact Hh.
        -- eexists; split; [reflexivity|].
           assert (Cx : ctx p (is_red t') (bheight c (S n))).
           { rewrite Bt'. destruct c; cbn [redc bheight]; tauto. }
           rewrite (plug_black_ok _ _ _ Rt' Cx Wt' P). split.
           ++ eapply plug_ok; eauto.
           ++ rewrite holes_plug. exact Hh.
Qed.

(** RawRemove. *)
Lemma lefts_app p q : lefts (p ++ q) = lefts q ++ lefts p.
Proof.
  induction p as [|[] p IH]; cbn [app lefts]; auto.
  - now rewrite app_nil_r.
  - rewrite IH. now rewrite !app_assoc.
Qed.
Lemma rights_app p q : rights (p ++ q) = rights p ++ rights q.
Proof.
  induction p as [|[] p IH]; cbn [app rights]; auto. rewrite IH. now rewrite !app_assoc.
Qed.

Definition unl (c : color) (child : tree) (p : path) : Prop :=
  match c with
  | Red => exists n, rb child n /\ is_red child = false /\ ctx p true n
  | Black => exists n, rb child n /\ ctx p false (S n)
  end.

Lemma unl_child c l h lm rm r p n child : rb (T c l h lm rm r) n -> ctx p (is_red (T c l h lm rm r)) n ->
  child = l \/ child = r -> unl c child p.
Proof.
  intros R C H. destruct c; cbn in C; inversion R; subst; cbn.
  - destruct H as [-> | ->]; eauto.
  - destruct H as [-> | ->]; eauto.
Qed.
Lemma unl_shape c child p q : shape p q -> unl c child p -> unl c child q.
Proof. destruct c; cbn; intros S (n & H); exists n; intuition; eauto using shape_ctx. Qed.

Lemma after_unlink_ok c child p : unl c child p -> wl child -> wlp p (mh child) ->
  exists t', after_unlink al c child p = Some t' /\ ok t' /\ holes t' = lefts p ++ holes child ++ rights p.
Proof.
  intros U W P. destruct c; cbn [unl after_unlink] in *.
  - destruct U as (n & R & B & C). eexists; split; [reflexivity|]. split; [|apply holes_plug].
    eapply plug_ok; eauto. rewrite B. now apply ctx_weak.
  - destruct U as (n & R & C). eapply remove_fixup_ok; eauto.
    destruct (is_red child) eqn:B; auto using rb_black.
Qed.

Lemma focus_rb : forall q t p n, rb (plug t q) n -> ctx p (is_red (plug t q)) n ->
  exists n', rb t n' /\ ctx (q ++ p) (is_red t) n'.
Proof.
  induction q as [|f q IH]; intros t p n R C; cbn [plug app] in *; [eauto|].
  destruct (IH _ _ _ R C) as (k & R1 & C1).
  destruct f as [c h lm rm s|c s h lm rm]; destruct c; cbn [node_of is_red] in *; inversion R1; subst;
    eexists; (split; [eassumption|]); cbn [ctx]; repeat split; auto.
Qed.
Lemma focus_wl : forall q t, wl (plug t q) ->
  wl t /\ seg q (mh t) (mh (plug t q)).
Proof.
  induction q as [|f q IH]; intros t W; cbn [plug seg] in *; auto.
  destruct (IH _ W) as (W1 & S1). rewrite mh_node in S1.
  destruct f; cbn [node_of wl label wlf] in *; intuition.
Qed.

Lemma leftmost_ok : forall t q, t <> E -> exists c h lm rm r q1,
  leftmost t q = Some (T c E h lm rm r, q1 ++ q) /\ plug (T c E h lm rm r) q1 = t /\ lefts q1 = [].
Proof.
  induction t as [|c l IHl h lm rm r _]; intros q H; [congruence|].
  destruct l as [|lc ll lh llm lrm lr].
  - exists c, h, lm, rm, r, []. auto.
  - cbn [leftmost]. destruct (IHl (FL c h lm rm r :: q)) as (c1 & h1 & lm1 & rm1 & r1 & q1 & E1 & E2 & E3); [easy|].
    cbn [leftmost] in E1. rewrite E1. exists c1, h1, lm1, rm1, r1, (q1 ++ [FL c h lm rm r]).
    rewrite <- app_assoc. split; [reflexivity|]. split.
    + clear - E2. revert E2. generalize (T c1 E h1 lm1 rm1 r1).
      induction q1 as [|g q1 IH]; intros t E2; cbn [plug app] in *; [now subst|]. now apply IH.
    + rewrite lefts_app. cbn. exact E3.
Qed.

Lemma wlf_label f m : wlf f -> wlf (set_label f m).
Proof. destruct f; auto. Qed.
Lemma label_set f m : label (set_label f m) = m.
Proof. destruct f; auto. Qed.
Lemma wlf_okh f : wlf f -> okh (f_hole f).
Proof. destruct f; cbn; tauto. Qed.
Lemma shape_label f m : shape_f f (set_label f m).
Proof. destruct f; cbn; auto. Qed.
Lemma shape_refl p : shape p p.
Proof. apply same_shape, same_refl. Qed.

Lemma raw_remove_ok c l h lm rm r p n m0 : rb (T c l h lm rm r) n -> ctx p (is_red (T c l h lm rm r)) n ->
  wl (T c l h lm rm r) -> wlp p m0 ->
  exists t', raw_remove al (T c l h lm rm r) p = Some t' /\ ok t' /\
    holes t' = lefts p ++ holes l ++ holes r ++ rights p.
Proof.
  intros R C W P.
  assert (One : forall child, (child = l \/ child = r) -> holes child = holes l ++ holes r ->
    exists t', match p with
      | [] => after_unlink al c child []
      | f :: p' =>
        do m <- mhs al child;
        let f' := set_label f m in
        do p'' <- recalc al (f_lm f') (f_rm f') (f_hole f') p';
        after_unlink al c child (f' :: p'')
      end = Some t' /\ ok t' /\ holes t' = lefts p ++ holes l ++ holes r ++ rights p).
  { intros child Hc Hh. pose proof (unl_child _ _ _ _ _ _ _ _ child R C Hc) as U.
    assert (Wc : wl child) by (apply wl_T in W; destruct Hc as [-> | ->]; tauto).
    destruct p as [|f p].
    - destruct (after_unlink_ok _ _ _ U Wc I) as (t' & -> & H1 & H2).
      eexists; split; [reflexivity|]. split; auto. rewrite H2, Hh. cbn. now rewrite <- !app_assoc.
    - rewrite (mhs_ok _ Wc). cbn [wlp] in P. destruct P as (L & F & P).
      destruct (recalc_ok p (f_lm (set_label f (mh child))) (f_rm (set_label f (mh child)))
        (f_hole (set_label f (mh child))) _ (wlf_okh _ (wlf_label _ _ F)) P) as (p'' & E1 & W1 & S1).
      cbv zeta. rewrite E1.
      destruct (after_unlink_ok c child (set_label f (mh child) :: p'')) as (t' & -> & H1 & H2); auto.
      { eapply unl_shape; [|exact U]. constructor; [apply shape_label|now apply same_shape]. }
      { cbn [wlp]. auto using label_set, wlf_label. }
      eexists; split; [reflexivity|]. split; auto. rewrite H2, Hh.
      assert (Sx : same (f :: p) (set_label f (mh child) :: p'')) by (constructor; auto using same_label).
      rewrite (same_lefts _ _ Sx), (same_rights _ _ Sx). now rewrite <- !app_assoc. }
  destruct l as [|lc ll lh llm lrm lr].
  { cbn [raw_remove]. apply One; auto. }
  destruct r as [|rc0 rl0 rh0 rlm0 rrm0 rr0].
  { cbn [raw_remove]. apply One; auto. cbn [holes]. now rewrite app_nil_r. }
  clear One. remember (T lc ll lh llm lrm lr) as l eqn:El. remember (T rc0 rl0 rh0 rlm0 rrm0 rr0) as r eqn:Er.
  assert (Eq : raw_remove al (T c l h lm rm r) p =
      do (rep, q) <- leftmost r [];
      match rep with
      | E => None
      | T rc _ rh _ rrm rchild =>
        match q with
        | [] =>
          do p' <- recalc al lm rrm rh p;
          after_unlink al rc rchild (FR c l rh lm rrm :: p')
        | f :: q' =>
          let f' := set_label f rrm in
          guard is_some (eff al h);
          do w <- recalc al (f_lm f') (f_rm f') (f_hole f') (q' ++ [FR c l h lm rm]);
          match rev w with
          | FR _ _ _ _ rm' :: w' =>
            do p' <- recalc al lm rm' rh p;
            after_unlink al rc rchild (f' :: rev w' ++ FR c l rh lm rm' :: p')
          | _ => None
          end
        end
      end) by (subst l r; reflexivity).
  rewrite Eq. clear Eq. clear El.
  destruct (leftmost_ok r []) as (rc & rh & rlm & rrm & rch & q & E1 & E2 & E3); [subst r; easy|].
  clear Er. rewrite E1, app_nil_r. clear E1.
  apply wl_T in W. destruct W as (-> & -> & Oh & Wl & Wr).
  pose proof (focus_rb [FR c l h (mh l) (mh r)] r p n R C) as (k & Rr & Cr).
  cbn [app] in Cr. rewrite <- E2 in Rr, Cr.
  destruct (focus_rb _ _ _ _ Rr Cr) as (k' & Rrep & Crep).
  rewrite <- E2 in Wr. destruct (focus_wl _ _ Wr) as (Wrep & Sq). rewrite E2 in Sq.
  pose proof (wl_T _ _ _ _ _ _ Wrep) as (-> & -> & Orh & _ & Wch).
  pose proof (unl_child _ _ _ _ _ _ _ _ rch Rrep Crep (or_intror eq_refl)) as U.
  assert (Hr : holes r = rh :: holes rch ++ rights q).
  { rewrite <- E2, holes_plug, E3. cbn. reflexivity. }
  destruct q as [|f q].
  - destruct (recalc_ok p (mh l) (mh rch) rh m0 Orh P) as (p' & -> & W1 & S1).
    destruct (after_unlink_ok rc rch (FR c l rh (mh l) (mh rch) :: p')) as (t' & -> & H1 & H2); auto.
    { eapply unl_shape; [|exact U]. cbn [app]. constructor; [cbn; auto|now apply same_shape]. }
    { cbn [wlp label wlf f_lm f_rm f_hole]. auto. }
    eexists; split; [reflexivity|]. split; auto. rewrite H2, Hr. cbn [lefts rights app].
    rewrite (same_lefts _ _ S1), (same_rights _ _ S1), app_nil_r. now repeat (rewrite <- ?app_assoc; cbn [app]).
  - cbn [seg] in Sq. destruct Sq as (Lf & Ff & Sq).
    unfold okh in Oh. destruct (eff al h) as [eh|] eqn:Eh; [|congruence]. cbn [is_some]. cbv zeta.
    assert (Oh' : okh h) by (unfold okh; congruence).
    assert (Pq : wlp (q ++ [FR c l h (mh l) (mh r)]) (top3 (f_lm f) (f_rm f) (f_hole f))).
    { apply seg_app. exists (mh r). split; auto. cbn. auto. }
    destruct (recalc_ok _ (f_lm (set_label f (mh rch))) (f_rm (set_label f (mh rch)))
      (f_hole (set_label f (mh rch))) _ (wlf_okh _ (wlf_label _ _ Ff)) Pq) as (w & -> & Ww & Sw).
    apply Forall2_app_inv_l in Sw. destruct Sw as (w1 & w2 & Sw1 & Sw2 & ->).
    inversion Sw2 as [|? g ? ? Sg Snil]; subst. inversion Snil; subst. clear Sw2 Snil.
    destruct g as [|gc gl gh glm grm]; [destruct Sg|]. destruct Sg as (<- & <- & <-).
    rewrite rev_app_distr. cbn [rev app]. rewrite rev_involutive.
    apply seg_app in Ww. destruct Ww as (m' & Sw & Wg). cbn [wlp label wlf f_lm f_rm f_hole] in Wg.
    destruct Wg as (-> & (-> & _ & _) & _).
    destruct (recalc_ok p (mh l) m' rh m0 Orh P) as (p' & -> & W1 & S1).
    destruct (after_unlink_ok rc rch (set_label f (mh rch) :: w1 ++ FR c l rh (mh l) m' :: p')) as (t' & -> & H1 & H2); auto.
    { eapply unl_shape; [|exact U]. cbn [app]. constructor; [apply shape_label|].
      apply Forall2_app; [now apply same_shape|]. constructor; [cbn; auto|now apply same_shape]. }
    { cbn [wlp]. rewrite label_set. split; [auto|]. split; [now apply wlf_label|].
      apply seg_app. exists m'. split; auto. cbn [wlp label wlf f_lm f_rm f_hole]. auto. }
    eexists; split; [reflexivity|]. split; auto. rewrite H2, Hr.
    assert (Sx : same (f :: q) (set_label f (mh rch) :: w1)) by (constructor; auto using same_label).
    change (set_label f (mh rch) :: w1 ++ FR c l rh (mh l) m' :: p') with ((set_label f (mh rch) :: w1) ++ FR c l rh (mh l) m' :: p').
    rewrite lefts_app, rights_app, (same_lefts _ _ Sx), (same_rights _ _ Sx), E3.
    cbn [lefts]. cbn [rights app].
    rewrite (same_lefts _ _ S1), (same_rights _ _ S1), app_nil_r. now repeat (rewrite <- ?app_assoc; cbn [app]).
Qed.

End Labels.
