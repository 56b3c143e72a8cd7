(** Insert and Remove of the hole tree as operations on the set of free bytes. *)
From Verif Require Import Base MhsModel MhsProofs.
From Coq Require Import Sorting.Sorted.
Open Scope N_scope.

(** Offsets of a file stay below 2^63 (toku_off_t is signed). *)
Definition LIM : N := 2 ^ 63.

(** Byte [b] is in a hole, in one of the holes. *)
Definition in_hole (b : N) (h : hole) : Prop := h_off h <= b /\ (h_size h = MAXV \/ b < h_off h + h_size h).
Definition free_byte (b : N) (hs : list hole) : Prop := exists h, In h hs /\ in_hole b h.

Definition valid (lo : N) (h : hole) : Prop :=
  lo <= h_off h /\ h_off h <= LIM /\ 0 < h_size h /\ (h_size h = MAXV \/ h_off h + h_size h <= LIM).
(** The second hole comes after the first and does not touch it. *)
Definition gap (h1 h2 : hole) : Prop := h_size h1 <> MAXV /\ h_off h1 + h_size h1 < h_off h2.
Definition sep (lo : N) (hs : list hole) : Prop := Forall (valid lo) hs /\ StronglySorted gap hs.

Lemma ss_app {A} (R : A -> A -> Prop) a b : StronglySorted R (a ++ b) <->
  StronglySorted R a /\ StronglySorted R b /\ forall x y, In x a -> In y b -> R x y.
Proof.
  induction a as [|x a IH]; cbn [app].
  - split; [intros H; repeat split; auto; [constructor|intros ? ? []]|tauto].
  - split.
    + intros H. inversion H as [|? ? H1 H2]; subst. apply IH in H1. destruct H1 as (H1 & H3 & H4).
      rewrite Forall_app in H2. destruct H2 as (H2 & H5). repeat split; auto.
      * constructor; auto.
      * intros y z [<-|Hy] Hz; [now apply (proj1 (Forall_forall _ _) H5)|auto].
    + intros (H1 & H2 & H3). inversion H1; subst. constructor.
      * apply IH. repeat split; auto. intros; apply H3; cbn; auto.
      * apply Forall_app. split; auto. apply Forall_forall. intros; apply H3; cbn; auto.
Qed.
Lemma ss_mid {A} (R : A -> A -> Prop) a x b : StronglySorted R (a ++ x :: b) <->
  StronglySorted R (a ++ b) /\ (forall y, In y a -> R y x) /\ (forall y, In y b -> R x y).
Proof.
  rewrite !ss_app. split.
  - intros (H1 & H2 & H3). inversion H2; subst. repeat split; auto.
    + intros; apply H3; cbn; auto.
    + intros; apply H3; cbn; auto.
    + now apply Forall_forall.
  - intros ((H1 & H2 & H3) & H4 & H5). repeat split; auto.
    + constructor; auto. now apply Forall_forall.
    + intros y z Hy [<-|Hz]; auto.
Qed.

Lemma sep_mid lo a x b : sep lo (a ++ x :: b) <->
  sep lo (a ++ b) /\ valid lo x /\ (forall y, In y a -> gap y x) /\ (forall y, In y b -> gap x y).
Proof.
  unfold sep. rewrite ss_mid, !Forall_app. split.
  - intros ((H1 & H2) & H3). inversion H2; subst. tauto.
  - intros (((H1 & H2) & H3) & H4 & H5). split; [|tauto]. split; auto.
Qed.
Lemma free_mid bt a x b : free_byte bt (a ++ x :: b) <-> free_byte bt (a ++ b) \/ in_hole bt x.
Proof.
  unfold free_byte. split.
  - intros (h & Hi & Hh). apply in_app_or in Hi. cbn in Hi. destruct Hi as [Hi|[<-|Hi]]; auto.
    + left; exists h; split; auto. apply in_or_app; auto.
    + left; exists h; split; auto. apply in_or_app; auto.
  - intros [(h & Hi & Hh)|H].
    + exists h; split; auto. apply in_app_or in Hi. apply in_or_app; cbn; tauto.
    + exists x. split; auto. apply in_or_app; cbn; auto.
Qed.

Section Align.
Variable al : N.
Hypothesis al2 : 2 <= al.
Hypothesis alB : al <= 2 ^ 32.

Lemma align_small v : v <= LIM -> align v al = (v + al - 1) / al * al.
Proof. unfold align, LIM. intros H. rewrite N.mod_small; [auto|]. lia. Qed.
Lemma align_ge v : v <= LIM -> v <= align v al < v + al.
Proof.
  intros H. rewrite align_small by auto.
  pose proof (N.div_mod (v + al - 1) al ltac:(lia)) as D.
  pose proof (N.mod_lt (v + al - 1) al ltac:(lia)). lia.
Qed.
Lemma align_mult v : v <= LIM -> align v al mod al = 0.
Proof. intros H. rewrite align_small by auto. apply N.mod_mul. lia. Qed.
Lemma align_least v a : v <= LIM -> v <= a -> a mod al = 0 -> align v al <= a.
Proof.
  intros H Ha Hm. rewrite align_small by auto.
  pose proof (N.div_mod a al ltac:(lia)) as D. rewrite Hm, N.add_0_r in D. rewrite D.
  rewrite (N.mul_comm al). apply N.mul_le_mono_r.
  apply N.lt_succ_r. apply N.div_lt_upper_bound; lia.
Qed.

Lemma eff_valid lo h : valid lo h ->
  eff al h = Some (if h_size h =? MAXV then MAXV
                   else if h_off h + h_size h <? align (h_off h) al then 0
                   else h_off h + h_size h - align (h_off h) al).
Proof.
  intros (_ & Ho & _ & Hs). unfold eff, oadd, ogt, osub, both_max.
  pose proof (align_ge _ Ho) as A. unfold LIM, MAXV in *.
  destruct (N.eqb_spec (h_size h) (2 ^ 64 - 1)) as [E1|E1].
  - rewrite orb_true_r. rewrite N.eqb_refl, andb_true_r.
    destruct (N.eqb_spec (align (h_off h) al) (2 ^ 64 - 1)); [lia|]. cbn [negb].
    destruct (N.ltb_spec (2 ^ 64 - 1) (align (h_off h) al)); [lia|]. reflexivity.
  - destruct Hs as [Hs|Hs]; [congruence|].
    destruct (N.eqb_spec (h_off h) (2 ^ 64 - 1)); [lia|]. cbn [orb].
    destruct (N.leb_spec (h_size h) (2 ^ 64 - 1 - h_off h)); [|lia].
    destruct (N.eqb_spec (align (h_off h) al) (2 ^ 64 - 1)); [lia|]. cbn [negb andb].
    destruct (N.ltb_spec (h_off h + h_size h) (align (h_off h) al)); auto.
    destruct (N.eqb_spec (h_off h + h_size h) (2 ^ 64 - 1)); [lia|].
    destruct (N.leb_spec (align (h_off h) al) (h_off h + h_size h)); [auto|lia].
Qed.
Lemma okh_valid lo h : valid lo h -> okh al h.
Proof. intros H. unfold okh. now rewrite (eff_valid lo). Qed.
(** The hole of a node about to disappear. *)
Lemma okh_dying o : o <= LIM \/ o = MAXV -> okh al (Hole o 0).
Proof.
  unfold okh, eff, oadd, ogt, osub, both_max. cbn [h_off h_size]. intros [Ho|Ho].
  - pose proof (align_ge _ Ho) as A. unfold LIM, MAXV in *.
    destruct (N.eqb_spec o (2 ^ 64 - 1)); [lia|]. cbn [orb]. destruct (N.eqb_spec 0 (2 ^ 64 - 1)); [lia|].
    destruct (N.leb_spec 0 (2 ^ 64 - 1 - o)); [|lia].
    destruct (N.eqb_spec (align o al) (2 ^ 64 - 1)); [lia|]. cbn [negb andb].
    destruct (N.ltb_spec (o + 0) (align o al)); [easy|].
    destruct (N.eqb_spec (o + 0) (2 ^ 64 - 1)); [easy|].
    destruct (N.leb_spec (align o al) (o + 0)); [easy|lia].
  - subst o. rewrite N.eqb_refl. cbn [orb].
    assert (A : align MAXV al = 0).
    { unfold align, MAXV. replace (2 ^ 64 - 1 + al - 1) with (al - 2 + 1 * 2 ^ 64) by lia.
      rewrite N.mod_add by lia. rewrite N.mod_small by lia. rewrite N.div_small; lia. }
    rewrite A. unfold MAXV. destruct (N.eqb_spec 0 (2 ^ 64 - 1)); [lia|]. cbn [negb andb].
    destruct (N.ltb_spec (2 ^ 64 - 1) 0); [easy|]. now rewrite N.eqb_refl.
Qed.

(** Where the place for a new node is. *)
Lemma descend_ok : forall t off p n, off <= LIM -> Forall (fun h => h_off h <= LIM) (holes t) ->
  StronglySorted gap (holes t) ->
  wl al t -> wlp al p (mh al t) -> rb t n -> ctx p (is_red t) n ->
  exists p', descend off t p = Some p' /\ wlp al p' 0 /\ ctx p' false 0 /\
    lefts p' ++ rights p' = lefts p ++ holes t ++ rights p /\
    exists a b, lefts p' = lefts p ++ a /\ rights p' = b ++ rights p /\ holes t = a ++ b /\
    (forall h, In h a -> h_off h <= off) /\ (forall h, In h b -> off < h_off h).
Proof.
  induction t as [|c l IHl h lm rm r IHr]; intros off p n Ho Hv Hs W P R C; cbn [descend].
  - exists p. inversion R; subst. repeat split; auto. exists [], []. rewrite app_nil_r. repeat split; auto; intros ? [].
  - cbn [holes] in Hv, Hs. rewrite Forall_app in Hv. destruct Hv as (Hl & Hr). inversion Hr as [|? ? Hh Hr']; subst.
    pose proof (proj1 (ss_app _ _ _) Hs) as (Sl & Sr & _). inversion Sr as [|? ? Sr' _]; subst.
    apply ss_mid in Hs. destruct Hs as (_ & Gl & Gr).
    pose proof (wl_T _ _ _ _ _ _ _ W) as (-> & -> & Oh & Wl & Wr).
    unfold olt, both_max. replace (off =? MAXV) with false by (symmetry; apply N.eqb_neq; unfold LIM, MAXV in *; lia).
    cbn [andb negb]. destruct (N.ltb_spec off (h_off h)) as [Hlt|Hge].
    + destruct (focus_rb [FL c h (mh al l) (mh al r) r] l p n R C) as (k & Rl & Cl).
      destruct (IHl off (FL c h (mh al l) (mh al r) r :: p) k) as (p' & E1 & W1 & C1 & Hh1 & a & b & H1 & H2 & H3 & H4 & H5); auto.
      { cbn [wlp label wlf f_lm f_rm f_hole]. repeat split; auto. }
      exists p'. split; [exact E1|]. split; [auto|]. split; [auto|]. split.
      { rewrite Hh1. cbn [lefts rights holes]. now repeat (rewrite <- ?app_assoc; cbn [app]). }
      exists a, (b ++ h :: holes r). cbn [lefts rights] in *. split; [auto|]. split; [rewrite H2; now repeat (rewrite <- ?app_assoc; cbn [app])|].
      cbn [holes]. split; [rewrite H3; now rewrite <- app_assoc|]. split; [auto|].
      intros x Hx. apply in_app_or in Hx. destruct Hx as [Hx|[<-|Hx]]; auto.
      destruct (Gr _ Hx). lia.
    + destruct (focus_rb [FR c l h (mh al l) (mh al r)] r p n R C) as (k & Rr & Cr).
      destruct (IHr off (FR c l h (mh al l) (mh al r) :: p) k) as (p' & E1 & W1 & C1 & Hh1 & a & b & H1 & H2 & H3 & H4 & H5); auto.
      { cbn [wlp label wlf f_lm f_rm f_hole]. repeat split; auto. }
      exists p'. split; [exact E1|]. split; [auto|]. split; [auto|]. split.
      { rewrite Hh1. cbn [lefts rights holes]. now repeat (rewrite <- ?app_assoc; cbn [app]). }
      exists (holes l ++ h :: a), b. cbn [lefts rights] in *. split; [rewrite H1; now repeat (rewrite <- ?app_assoc; cbn [app])|]. split; [auto|].
      cbn [holes]. split; [rewrite H3; now rewrite <- app_assoc|]. split; [|auto].
      intros x Hx. apply in_app_or in Hx. destruct Hx as [Hx|[<-|Hx]]; auto.
      destruct (Gl _ Hx). lia.
Qed.

(** The nearest nodes above it. *)
Lemma nearest_spec : forall b p,
  match nearest b p with
  | None => Forall (fun f => is_fl f = negb b) p
  | Some n => exists p1 f p2, p = p1 ++ f :: p2 /\ length p1 = n /\ is_fl f = b /\ Forall (fun f => is_fl f = negb b) p1
  end.
Proof.
  intros b; induction p as [|f p IH]; cbn [nearest]; auto.
  destruct (Bool.eqb (is_fl f) b) eqn:E0.
  - apply eqb_prop in E0. exists [], f, p. auto.
  - assert (E1 : is_fl f = negb b) by (destruct (is_fl f), b; auto; discriminate).
    destruct (nearest b p) as [n|].
    + destruct IH as (p1 & g & p2 & -> & <- & H1 & H2). exists (f :: p1), g, p2. auto.
    + auto.
Qed.
Lemma all_fl p : Forall (fun f => is_fl f = true) p -> lefts p = [].
Proof. induction 1 as [|[] p H Hp IH]; cbn in *; auto; discriminate. Qed.
Lemma all_fr p : Forall (fun f => is_fl f = false) p -> rights p = [].
Proof. induction 1 as [|[] p H Hp IH]; cbn in *; auto; discriminate. Qed.
Lemma lefts_nil p : lefts p = [] -> Forall (fun f => is_fl f = true) p.
Proof. induction p as [|[] p IH]; cbn; intros H; auto. destruct (lefts p); discriminate || (destruct (holes l); discriminate). Qed.

Lemma upd_app p1 f p2 h : upd (length p1) h (p1 ++ f :: p2) = p1 ++ set_hole f h :: p2.
Proof. induction p1 as [|g p1 IH]; cbn; auto. now rewrite IH. Qed.
Lemma hole_at_app p1 f p2 : hole_at (length p1) (p1 ++ f :: p2) = Some (f_hole f).
Proof. unfold hole_at. rewrite nth_error_app2 by lia. now rewrite Nat.sub_diag. Qed.

Lemma wlf_hole f h : wlf al f -> okh al h -> wlf al (set_hole f h).
Proof. destruct f; cbn; tauto. Qed.
Lemma label_hole f h : label (set_hole f h) = label f.
Proof. destruct f; auto. Qed.
Lemma shape_hole f h : shape_f f (set_hole f h).
Proof. destruct f; cbn; auto. Qed.
Lemma hole_set_hole f h : f_hole (set_hole f h) = h.
Proof. destruct f; auto. Qed.

Lemma absorb_ok p1 f p2 h : wlp al (p1 ++ f :: p2) 0 -> ctx (p1 ++ f :: p2) false 0 -> okh al h ->
  exists t', absorb al (length p1) h (p1 ++ f :: p2) = Some t' /\ ok al t' /\
    holes t' = lefts (p1 ++ set_hole f h :: p2) ++ rights (p1 ++ set_hole f h :: p2).
Proof.
  intros W C Oh. unfold absorb. rewrite upd_app, recalc_at_app.
  apply seg_app in W. destruct W as (m1 & Sg & W). cbn [wlp] in W. destruct W as (L & F & W).
  destruct (recalc_ok al p2 (f_lm (set_hole f h)) (f_rm (set_hole f h)) (f_hole (set_hole f h)) _
     (wlf_okh _ _ (wlf_hole _ _ F Oh)) W) as (p2' & -> & W2 & S2).
  eexists; split; [reflexivity|]. split.
  - apply (plug_ok al E _ 0); [constructor| |exact I|].
    + eapply shape_ctx; [|exact C]. apply Forall2_app; [apply shape_refl|].
      constructor; [apply shape_hole|now apply same_shape].
    + apply seg_app. exists m1. split; auto. cbn [wlp]. rewrite label_hole.
      repeat split; auto using wlf_hole.
  - rewrite holes_plug. cbn [holes app]. rewrite !lefts_app, !rights_app.
    assert (Sx : same (set_hole f h :: p2) (set_hole f h :: p2')) by (constructor; auto using same_f_refl).
    rewrite (same_lefts _ _ Sx), (same_rights _ _ Sx). reflexivity.
Qed.

Definition sib (f : frame) : tree := match f with FL _ _ _ _ r => r | FR _ l _ _ _ => l end.

Lemma absorb_both_ok f p1 g p2 hd hk : wlp al (f :: p1 ++ g :: p2) 0 -> ctx (f :: p1 ++ g :: p2) false 0 ->
  okh al hd -> okh al hk ->
  exists t', absorb_both al (S (length p1)) hd hk (f :: p1 ++ g :: p2) = Some t' /\ ok al t' /\
    holes t' = lefts (p1 ++ set_hole g hk :: p2) ++ holes (sib f) ++ rights (p1 ++ set_hole g hk :: p2).
Proof.
  intros W C Od Ok. unfold absorb_both. cbn [upd]. rewrite upd_app. cbn [recalc_at].
  cbn [wlp] in W. destruct W as (L & F & W). apply seg_app in W. destruct W as (m1 & Sg & W).
  cbn [wlp] in W. destruct W as (Lg & Fg & W).
  destruct (recalc_two al p1 (set_hole g hk) p2 (f_lm (set_hole f hd)) (f_rm (set_hole f hd)) (f_hole (set_hole f hd)) _ m1 _
     (wlf_okh _ _ (wlf_hole _ _ F Od)) Sg ltac:(now rewrite label_hole) (wlf_hole _ _ Fg Ok) W)
    as (p1' & g' & p2' & -> & Hl & S1 & S2 & S3 & Fg' & Sg' & m2' & W2).
  rewrite <- Hl. rewrite recalc_at_app.
  destruct (recalc_ok al p2' (f_lm g') (f_rm g') (f_hole g') _ (wlf_okh _ _ Fg') W2) as (p2'' & -> & W3 & S4).
  assert (Shape : shape (f :: p1 ++ g :: p2) (set_hole f hd :: p1' ++ g' :: p2'')).
  { constructor; [apply shape_hole|]. apply Forall2_app; [now apply same_shape|]. constructor.
    - destruct g, g'; cbn in S2 |- *; tauto.
    - apply same_shape. eapply same_trans; eauto. }
  pose proof (shape_ctx _ _ Shape _ _ C) as C'.
  assert (Wp : wlp al (p1' ++ g' :: p2'') (top3 al (f_lm (set_hole f hd)) (f_rm (set_hole f hd)) (f_hole (set_hole f hd)))).
  { apply seg_app. exists (label g'). split; auto. cbn [wlp]. auto. }
  assert (Wn : wl al (node_of E (set_hole f hd))).
  { apply wl_node; [exact I|now apply wlf_hole|rewrite label_hole; exact L]. }
  assert (Hh : same (p1 ++ set_hole g hk :: p2) (p1' ++ g' :: p2'')).
  { apply Forall2_app; auto. constructor; auto. eapply same_trans; eauto. }
  assert (RC : exists n, rb (node_of E (set_hole f hd)) n /\ ctx (p1' ++ g' :: p2'') (is_red (node_of E (set_hole f hd))) n).
  { clear - C'. destruct f as [[] ? ? ? ?|[] ? ? ? ?]; cbn [set_hole ctx node_of is_red] in *.
    - exists O. destruct C' as (? & ? & ? & ?). split; auto. constructor; auto using rbE.
    - exists 1%nat. destruct C' as (? & ?). split; auto. constructor; auto using rbE.
    - exists O. destruct C' as (? & ? & ? & ?). split; auto. constructor; auto using rbE.
    - exists 1%nat. destruct C' as (? & ?). split; auto. constructor; auto using rbE. }
  destruct RC as (n & Rn & Cn).
  destruct f as [c h lm rm r|c l h lm rm]; cbn [set_hole node_of] in *.
  - destruct (raw_remove_ok al _ _ _ _ _ _ _ _ _ Rn Cn Wn Wp) as (t' & -> & H1 & H2).
    eexists; split; [reflexivity|]. split; auto. rewrite H2. cbn [holes sib app].
    rewrite (same_lefts _ _ Hh), (same_rights _ _ Hh). reflexivity.
  - destruct (raw_remove_ok al _ _ _ _ _ _ _ _ _ Rn Cn Wn Wp) as (t' & -> & H1 & H2).
    eexists; split; [reflexivity|]. split; auto. rewrite H2. cbn [holes sib app].
    rewrite (same_lefts _ _ Hh), (same_rights _ _ Hh). reflexivity.
Qed.

(** The four ways a new hole joins a list of holes. *)
Definition plus (a b : N) : N := if (a =? MAXV) || (b =? MAXV) then MAXV else a + b.
Lemma oadd_plus a b : a = MAXV \/ b = MAXV \/ a + b <= MAXV -> oadd a b = Some (plus a b).
Proof.
  unfold oadd, plus. intros H. destruct (N.eqb_spec a MAXV), (N.eqb_spec b MAXV); cbn [orb]; auto.
  destruct (N.leb_spec b (MAXV - a)); auto. lia.
Qed.

Section Join.
Variables (lo : N) (A B : list hole) (off size : N).
Hypothesis Sep : sep lo (A ++ B).
Hypothesis V : valid lo (Hole off size).
Hypothesis HA : forall x, In x A -> h_size x <> MAXV /\ h_off x + h_size x <= off.
Hypothesis HB : forall y, In y B -> size <> MAXV /\ off + size <= h_off y.

Definition joined (hs : list hole) : Prop :=
  sep lo hs /\ forall b, free_byte b hs <-> free_byte b (A ++ B) \/ in_hole b (Hole off size).

Lemma join_none : (forall x, In x A -> h_off x + h_size x <> off) -> (forall y, In y B -> off + size <> h_off y) ->
  joined (A ++ Hole off size :: B).
Proof.
  intros NA NB. split.
  - apply sep_mid. split; [auto|]. split; [auto|]. unfold gap. cbn [h_off h_size]. split.
    + intros x Hx. destruct (HA x Hx). specialize (NA x Hx). lia.
    + intros y Hy. destruct (HB y Hy). specialize (NB y Hy). lia.
  - intros b. apply free_mid.
Qed.

Lemma join_left A' h : A = A' ++ [h] -> h_off h + h_size h = off -> (forall y, In y B -> off + size <> h_off y) ->
  joined (A' ++ Hole (h_off h) (plus (h_size h) size) :: B).
Proof.
  intros EA E0 NB. revert Sep HA. unfold joined. rewrite EA. intros Sep' HA'. pose proof V as (V1 & V2 & V3 & V4). cbn [h_off h_size] in *.
  rewrite <- app_assoc in Sep'. cbn [app] in Sep'. apply sep_mid in Sep'. destruct Sep' as (S1 & (U1 & U2 & U3 & U4) & G1 & G2).
  destruct (HA' h) as (M & _); [apply in_or_app; cbn; auto|].
  assert (Pl : (size = MAXV /\ plus (h_size h) size = MAXV) \/ (size <> MAXV /\ plus (h_size h) size = h_size h + size)).
  { unfold plus. destruct (N.eqb_spec (h_size h) MAXV); [easy|]. destruct (N.eqb_spec size MAXV); auto. }
  assert (L : LIM < MAXV) by (unfold LIM, MAXV; lia).
  split.
  - apply sep_mid. split; [auto|]. split; [|split].
    + unfold valid. cbn [h_off h_size]. lia.
    + intros y Hy. destruct (G1 y Hy). split; auto.
    + intros y Hy. destruct (HB y Hy). specialize (NB y Hy). split; cbn [h_off h_size]; lia.
  - intros b. rewrite <- app_assoc. cbn [app]. rewrite !free_mid. unfold in_hole. cbn [h_off h_size].
    split.
    + intros [H|H]; auto. destruct (N.lt_ge_cases b off); [left; right; lia|right; lia].
    + intros [[H|H]|H]; auto; right; lia.
Qed.

Lemma join_right B' h : B = h :: B' -> off + size = h_off h -> (forall x, In x A -> h_off x + h_size x <> off) ->
  joined (A ++ Hole off (plus (h_size h) size) :: B').
Proof.
  intros EB E0 NA. revert Sep HB. unfold joined. rewrite EB. intros Sep' HB'. pose proof V as (V1 & V2 & V3 & V4). cbn [h_off h_size] in *.
  apply sep_mid in Sep'. destruct Sep' as (S1 & (U1 & U2 & U3 & U4) & G1 & G2).
  destruct (HB' h) as (M & _); [cbn; auto|].
  assert (Pl : (h_size h = MAXV /\ plus (h_size h) size = MAXV) \/ (h_size h <> MAXV /\ plus (h_size h) size = h_size h + size)).
  { unfold plus. destruct (N.eqb_spec (h_size h) MAXV); [auto|]. destruct (N.eqb_spec size MAXV); [easy|auto]. }
  assert (L : LIM < MAXV) by (unfold LIM, MAXV; lia).
  split.
  - apply sep_mid. split; [auto|]. split; [|split].
    + unfold valid. cbn [h_off h_size]. lia.
    + intros y Hy. destruct (HA y Hy). specialize (NA y Hy). split; cbn [h_off h_size]; lia.
    + intros y Hy. destruct (G2 y Hy). split; cbn [h_off h_size]; lia.
  - intros b. rewrite !free_mid. unfold in_hole. cbn [h_off h_size].
    split.
    + intros [H|H]; auto. destruct (N.lt_ge_cases b (h_off h)); [right; lia|left; right; lia].
    + intros [[H|H]|H]; auto; right; lia.
Qed.

Lemma join_both A' B' h h2 : A = A' ++ [h] -> B = h2 :: B' -> h_off h + h_size h = off -> off + size = h_off h2 ->
  joined (A' ++ Hole (h_off h) (plus (h_size h) (plus (h_size h2) size)) :: B').
Proof.
  intros EA EB E0 E1. revert Sep HA HB. unfold joined. rewrite EA, EB. intros Sep' HA' HB'. pose proof V as (V1 & V2 & V3 & V4). cbn [h_off h_size] in *.
  assert (Sep2 := Sep'). apply sep_mid in Sep2. destruct Sep2 as (_ & (T1 & T2 & T3 & T4) & _ & K2).
  rewrite <- app_assoc in Sep'. cbn [app] in Sep'. apply sep_mid in Sep'. destruct Sep' as (S1 & (U1 & U2 & U3 & U4) & G1 & G2).
  destruct (HA' h) as (M & _); [apply in_or_app; cbn; auto|].
  destruct (HB' h2) as (M2 & _); [cbn; auto|].
  assert (L : LIM < MAXV) by (unfold LIM, MAXV; lia).
  assert (Pl : (h_size h2 = MAXV /\ plus (h_size h) (plus (h_size h2) size) = MAXV) \/
               (h_size h2 <> MAXV /\ plus (h_size h) (plus (h_size h2) size) = h_size h + size + h_size h2)).
  { unfold plus. destruct (N.eqb_spec (h_size h2) MAXV).
    - cbn [orb]. rewrite N.eqb_refl, orb_true_r. auto.
    - destruct (N.eqb_spec size MAXV); [easy|]. cbn [orb]. destruct (N.eqb_spec (h_size h) MAXV); [easy|]. cbn [orb].
      destruct (N.eqb_spec (h_size h2 + size) MAXV); [lia|]. right. split; [auto|lia]. }
  split.
  - assert (S2 : sep lo (A' ++ B')).
    { apply sep_mid in S1. tauto. }
    apply sep_mid. split; [auto|]. split; [|split].
    + unfold valid. cbn [h_off h_size]. lia.
    + intros y Hy. destruct (G1 y Hy). split; cbn [h_off h_size]; auto.
    + intros y Hy. destruct (K2 y Hy). split; cbn [h_off h_size]; lia.
  - intros b. rewrite <- app_assoc. cbn [app]. rewrite !free_mid. unfold in_hole. cbn [h_off h_size].
    split.
    + intros [H|H]; auto.
      destruct (N.lt_ge_cases b off); [left; right; lia|].
      destruct (N.lt_ge_cases b (h_off h2)); [right; lia|left; left; right; lia].
    + intros [[[H|H]|H]|H]; auto; right; lia.
Qed.
End Join.

Lemma le_lim h : h <= LIM -> (h =? MAXV) = false.
Proof. intros H. apply N.eqb_neq. unfold LIM, MAXV in *. lia. Qed.

Theorem insert_ok lo t off size : ok al t -> sep lo (holes t) -> valid lo (Hole off size) ->
  (forall b, in_hole b (Hole off size) -> ~ free_byte b (holes t)) ->
  exists t', insert al t off size = Some t' /\ ok al t' /\ sep lo (holes t') /\
    forall b, free_byte b (holes t') <-> free_byte b (holes t) \/ in_hole b (Hole off size).
Proof.
  intros (W & (n & R) & Bk) Sp V D.
  pose proof V as (V1 & V2 & V3 & V4). cbn [h_off h_size] in V1, V2, V3, V4.
  assert (L : LIM < MAXV) by (unfold LIM, MAXV; lia).
  destruct (descend_ok t off [] n) as (p & E1 & Wp & Cp & Hh & a & b & Ha & Hb & Hab & La & Lb); auto.
  { eapply Forall_impl; [|exact (proj1 Sp)]. unfold valid. intros; lia. }
  { apply (proj2 Sp). }
  { exact I. }
  cbn [lefts rights app] in *. rewrite app_nil_r in *.
  assert (HV : forall x, In x (lefts p ++ rights p) -> valid lo x).
  { rewrite Hh. intros x Hx. apply (proj1 (Forall_forall _ _) (proj1 Sp) x Hx). }
  assert (HA : forall x, In x (lefts p) -> h_size x <> MAXV /\ h_off x + h_size x <= off).
  { intros x Hx. assert (Hf : ~ in_hole off x).
    { intros Hi. apply (D off). { split; cbn [h_off h_size]; lia. }
      exists x. split; auto. rewrite <- Hh. apply in_or_app; auto. }
    rewrite Ha in Hx. specialize (La x Hx). unfold in_hole in Hf.
    destruct (N.eq_dec (h_size x) MAXV); [exfalso; apply Hf; auto|]. split; auto. lia. }
  assert (HB : forall y, In y (rights p) -> size <> MAXV /\ off + size <= h_off y).
  { intros y Hy. assert (Hv : valid lo y) by (apply HV, in_or_app; auto).
    assert (Hf : ~ in_hole (h_off y) (Hole off size)).
    { intros Hi. apply (D (h_off y) Hi). exists y. split; [rewrite <- Hh; apply in_or_app; auto|].
      destruct Hv as (_ & _ & ? & _). split; lia. }
    rewrite Hb in Hy. specialize (Lb y Hy). unfold in_hole in Hf. cbn [h_off h_size] in Hf.
    destruct (N.eq_dec size MAXV); [exfalso; apply Hf; lia|]. split; auto. lia. }
  rewrite <- Hh in Sp.
  assert (Fin : forall t', ok al t' -> joined lo (lefts p) (rights p) off size (holes t') ->
     exists t2, Some t' = Some t2 /\ ok al t2 /\ sep lo (holes t2) /\
       forall b, free_byte b (holes t2) <-> free_byte b (holes t) \/ in_hole b (Hole off size)).
  { intros t' O (J1 & J2). exists t'. split; [reflexivity|]. split; [exact O|]. split; [exact J1|]. rewrite <- Hh. exact J2. }
  unfold insert. rewrite E1.
  (* the neighbours *)
  pose proof (nearest_spec false p) as NP. pose proof (nearest_spec true p) as NS.
  destruct (nearest false p) as [np|].
  - destruct NP as (p1 & f & p2 & Ep & <- & Ff & Fp1). cbn [negb] in Fp1.
    destruct f as [|fc fl hp flm frm]; [discriminate|].
    assert (EA : lefts p = (lefts p2 ++ holes fl) ++ [hp]).
    { rewrite Ep, lefts_app. cbn [lefts]. rewrite (all_fl _ Fp1), app_nil_r. now rewrite app_assoc. }
    assert (Vp : valid lo hp). { apply HV. rewrite EA. apply in_or_app. left. apply in_or_app. cbn; auto. }
    destruct (HA hp) as (Mp & Lp). { rewrite EA. apply in_or_app; cbn; auto. }
    destruct Vp as (P1 & P2 & P3 & P4).
    assert (HAp : h_off hp + h_size hp < off -> forall x, In x (lefts p) -> h_off x + h_size x <> off).
    { intros Hlt x Hx. rewrite EA in Hx, Sp. apply in_app_or in Hx. destruct Hx as [Hx|[<-|[]]]; [|lia].
      rewrite <- app_assoc in Sp. cbn [app] in Sp. apply sep_mid in Sp. destruct Sp as (_ & _ & G & _). destruct (G x Hx). lia. }
    unfold left_mergable. assert (Eh1 : hole_at (length p1) p = Some hp) by (rewrite Ep, hole_at_app; auto). rewrite Eh1.
    rewrite oadd_plus by lia. assert (Epl : plus (h_size hp) (h_off hp) = h_size hp + h_off hp).
    { unfold plus. rewrite (le_lim _ P2), orb_false_r. destruct (N.eqb_spec (h_size hp) MAXV); [easy|auto]. }
    rewrite Epl. unfold olt, both_max. rewrite (le_lim _ V2), andb_false_r. cbn [negb].
    destruct (N.ltb_spec (h_size hp + h_off hp) off) as [Hlt|Hge].
    + destruct (nearest true p) as [ns|].
      * destruct NS as (q1 & g & q2 & Eq & <- & Fg & Fq1). cbn [negb] in Fq1.
        destruct g as [gc hs glm grm gr|]; [|discriminate].
        assert (EB : rights p = hs :: (holes gr ++ rights q2)).
        { rewrite Eq, rights_app. cbn [rights]. now rewrite (all_fr _ Fq1). }
        destruct (HB hs) as (Ms & Ls). { rewrite EB. cbn; auto. }
        assert (Vs : valid lo hs). { apply HV, in_or_app. right. rewrite EB. cbn; auto. }
        destruct Vs as (T1 & T2 & T3 & T4).
        assert (HBs : off + size < h_off hs -> forall y, In y (rights p) -> off + size <> h_off y).
        { intros Hl y Hy. rewrite EB in Hy, Sp. destruct Hy as [<-|Hy]; [lia|].
          apply sep_mid in Sp. destruct Sp as (_ & _ & _ & G). destruct (G y Hy). lia. }
        unfold right_mergable. assert (Eh2 : hole_at (length q1) p = Some hs) by (rewrite Eq, hole_at_app; auto). rewrite Eh2.
        rewrite oadd_plus by lia. assert (Epl2 : plus off size = off + size).
        { unfold plus. rewrite (le_lim _ V2). destruct (N.eqb_spec size MAXV); [easy|auto]. }
        rewrite Epl2. unfold olt, both_max. rewrite (le_lim _ T2), andb_false_r. cbn [negb].
        destruct (N.ltb_spec (off + size) (h_off hs)) as [Hlt2|Hge2].
        -- destruct p as [|f0 p0]; [destruct p1; discriminate|].
           destruct (recalc_ok al (f0 :: p0) 0 0 (Hole off size) 0 (okh_valid _ _ V) Wp) as (p' & -> & W' & S').
           destruct (insert_fixup_ok al (length p') p' (T Red E (Hole off size) 0 0 E) 0) as (t' & -> & O' & Ht'); auto.
           { constructor; auto using rbE. }
           { eapply same_ctx; eauto. }
           { cbn [wl mh]. repeat split; auto. eapply okh_valid; eauto. }
           apply Fin; auto. rewrite Ht', (same_lefts _ _ S'), (same_rights _ _ S').
           apply join_none; auto. apply HAp; lia.
        -- assert (E2 : off + size = h_off hs) by lia. rewrite E2, N.eqb_refl.
           destruct p as [|f0 p0]; [destruct p1; discriminate|].
           rewrite Eq.
           unfold osubeq. rewrite (le_lim _ T2). destruct (N.eqb_spec size MAXV); [easy|]. cbn [negb].
           destruct (N.leb_spec size (h_off hs)); [|lia].
           rewrite oadd_plus by lia.
           rewrite Eq in Wp, Cp.
           destruct (absorb_ok q1 (FL gc hs glm grm gr) q2 (Hole (h_off hs - size) (plus (h_size hs) size)) Wp Cp) as (t' & -> & O' & Ht').
           { apply (okh_valid lo). unfold valid, plus. cbn [h_off h_size]. rewrite (proj2 (N.eqb_neq size MAXV)) by auto.
             rewrite orb_false_r. destruct (N.eqb_spec (h_size hs) MAXV); lia. }
           apply Fin; auto. rewrite Ht', !lefts_app, !rights_app. cbn [set_hole lefts rights].
           replace (h_off hs - size) with off by lia.
           rewrite (all_fr _ Fq1). cbn [app].
           replace (lefts q2 ++ lefts q1) with (lefts (f0 :: p0)) by (rewrite Eq, lefts_app; reflexivity).
           eapply join_right; eauto. apply HAp; lia.
      * assert (EB : rights p = []) by (apply all_fr; exact NS). cbn [right_mergable].
        destruct p as [|f0 p0]; [destruct p1; discriminate|].
        destruct (recalc_ok al (f0 :: p0) 0 0 (Hole off size) 0 (okh_valid _ _ V) Wp) as (p' & -> & W' & S').
        destruct (insert_fixup_ok al (length p') p' (T Red E (Hole off size) 0 0 E) 0) as (t' & -> & O' & Ht'); auto.
        { constructor; auto using rbE. }
        { eapply same_ctx; eauto. }
        { cbn [wl mh]. repeat split; auto. eapply okh_valid; eauto. }
        apply Fin; auto. rewrite Ht', (same_lefts _ _ S'), (same_rights _ _ S').
        apply join_none; auto; [apply HAp; lia|]. rewrite EB. intros ? [].
    + assert (E2 : h_off hp + h_size hp = off) by lia.
      rewrite N.add_comm in E2. rewrite E2, N.eqb_refl. rewrite N.add_comm in E2.
      destruct (nearest true p) as [ns|].
      * destruct NS as (q1 & g & q2 & Eq & <- & Fg & Fq1). cbn [negb] in Fq1.
        destruct g as [gc hs glm grm gr|]; [|discriminate].
        assert (EB : rights p = hs :: (holes gr ++ rights q2)).
        { rewrite Eq, rights_app. cbn [rights]. now rewrite (all_fr _ Fq1). }
        destruct (HB hs) as (Ms & Ls). { rewrite EB. cbn; auto. }
        assert (Vs : valid lo hs). { apply HV, in_or_app. right. rewrite EB. cbn; auto. }
        destruct Vs as (T1 & T2 & T3 & T4).
        assert (HBs : off + size < h_off hs -> forall y, In y (rights p) -> off + size <> h_off y).
        { intros Hl y Hy. rewrite EB in Hy, Sp. destruct Hy as [<-|Hy]; [lia|].
          apply sep_mid in Sp. destruct Sp as (_ & _ & _ & G). destruct (G y Hy). lia. }
        unfold right_mergable. assert (Eh2 : hole_at (length q1) p = Some hs) by (rewrite Eq, hole_at_app; auto). rewrite Eh2.
        rewrite oadd_plus by lia. assert (Epl2 : plus off size = off + size).
        { unfold plus. rewrite (le_lim _ V2). destruct (N.eqb_spec size MAXV); [easy|auto]. }
        rewrite Epl2. unfold olt, both_max. rewrite (le_lim _ T2), andb_false_r. cbn [negb].
        destruct (N.ltb_spec (off + size) (h_off hs)) as [Hlt2|Hge2].
        -- destruct p as [|f0 p0]; [destruct p1; discriminate|].
           rewrite Ep. rewrite oadd_plus by lia.
           rewrite Ep in Wp, Cp.
           destruct (absorb_ok p1 (FR fc fl hp flm frm) p2 (Hole (h_off hp) (plus (h_size hp) size)) Wp Cp) as (t' & -> & O' & Ht').
           { apply (okh_valid lo). unfold valid, plus. cbn [h_off h_size]. rewrite (proj2 (N.eqb_neq (h_size hp) MAXV)) by auto.
             cbn [orb]. destruct (N.eqb_spec size MAXV); lia. }
           apply Fin; auto. rewrite Ht', !lefts_app, !rights_app. cbn [set_hole lefts rights].
           rewrite (all_fl _ Fp1), app_nil_r.
           replace (rights p1 ++ rights p2) with (rights (f0 :: p0)) by (rewrite Ep, rights_app; reflexivity).
           rewrite app_assoc, <- app_assoc. cbn [app].
           eapply join_left; eauto.
        -- assert (E3 : off + size = h_off hs) by lia. rewrite E3, N.eqb_refl.
           destruct p as [|f0 p0]; [destruct p1; discriminate|].
           assert (Jb := join_both lo _ _ off size Sp V HA HB _ _ _ _ EA EB E2 E3).
           assert (Hin : In (Hole (h_off hp) (plus (h_size hp) (plus (h_size hs) size)))
              ((lefts p2 ++ holes fl) ++ Hole (h_off hp) (plus (h_size hp) (plus (h_size hs) size)) :: holes gr ++ rights q2))
             by (apply in_or_app; cbn; auto).
           assert (Vk := proj1 (Forall_forall _ _) (proj1 (proj1 Jb)) _ Hin).
           destruct (is_fl f0) eqn:Ef0.
           ++ destruct q1 as [|f1 q1]; [|cbn in Eq; inversion Eq; subst f1; inversion Fq1; subst; congruence].
              cbn [app] in Eq. injection Eq as -> ->.
              destruct p1 as [|f1 p1]; [discriminate Ep|]. cbn [app] in Ep. injection Ep as <- ->.
              assert (Pz : plus (h_size hs) size = MAXV \/ (h_size hs <> MAXV /\ plus (h_size hs) size = h_size hs + size)).
              { unfold plus. destruct (N.eqb_spec size MAXV); [easy|]. destruct (N.eqb_spec (h_size hs) MAXV); auto. }
              rewrite (oadd_plus (h_size hs)) by lia. rewrite (oadd_plus (h_size hp)) by lia. rewrite (oadd_plus off) by lia.
              destruct (absorb_both_ok (FL gc hs glm grm gr) p1 (FR fc fl hp flm frm) p2
                 (Hole (plus off (plus (h_size hs) size)) 0) (Hole (h_off hp) (plus (h_size hp) (plus (h_size hs) size))) Wp Cp)
                as (t' & Et & O' & Ht').
              { apply okh_dying. destruct Pz as [Pz|(Pz1 & Pz)]; rewrite Pz.
                - right. unfold plus. now rewrite N.eqb_refl, orb_true_r.
                - left. unfold plus. rewrite (le_lim _ V2). cbn [orb].
                  destruct (N.eqb_spec (h_size hs + size) MAXV); lia. }
              { eapply okh_valid; eauto. }
              cbn [length] in Et |- *. rewrite Et. apply Fin; auto. rewrite Ht'. inversion Fp1; subst.
              rewrite lefts_app, rights_app. cbn [set_hole lefts rights sib]. rewrite (all_fl p1) by auto.
              rewrite app_nil_r. rewrite rights_app in Jb. cbn [rights] in Jb.
              eapply eq_ind; [exact Jb|]. now repeat (rewrite <- ?app_assoc; cbn [app]).
           ++ destruct p1 as [|f1 p1]; [|cbn in Ep; inversion Ep; subst f1; inversion Fp1; subst; congruence].
              cbn [app] in Ep. injection Ep as -> ->.
              destruct q1 as [|f1 q1]; [discriminate Eq|]. cbn [app] in Eq. injection Eq as <- ->.
              assert (Pz : plus (h_size hp) size = h_size hp + size).
              { unfold plus. destruct (N.eqb_spec (h_size hp) MAXV), (N.eqb_spec size MAXV); easy. }
              assert (Pw : plus (h_size hs) (h_size hp + size) = plus (h_size hp) (plus (h_size hs) size)).
              { unfold plus. destruct (N.eqb_spec (h_size hp) MAXV); [easy|]. destruct (N.eqb_spec size MAXV); [easy|].
                destruct (N.eqb_spec (h_size hs) MAXV); cbn [orb]; [now rewrite N.eqb_refl|].
                destruct (N.eqb_spec (h_size hp + size) MAXV); [lia|]. destruct (N.eqb_spec (h_size hs + size) MAXV); [lia|]. lia. }
              rewrite (oadd_plus (h_size hp)) by lia. rewrite Pz.
              rewrite (oadd_plus (h_size hs)) by lia. rewrite (oadd_plus (h_off hp)) by lia. rewrite Pw.
              destruct (absorb_both_ok (FR fc fl hp flm frm) q1 (FL gc hs glm grm gr) q2
                 (Hole (plus (h_off hp) (h_size hp + size)) 0) (Hole (h_off hp) (plus (h_size hp) (plus (h_size hs) size))) Wp Cp)
                as (t' & Et & O' & Ht').
              { apply okh_dying. left. unfold plus. rewrite (le_lim _ P2). cbn [orb].
                destruct (N.eqb_spec (h_size hp + size) MAXV); lia. }
              { eapply okh_valid; eauto. }
              cbn [length] in Et |- *. rewrite Et. apply Fin; auto. rewrite Ht'. inversion Fq1; subst.
              rewrite lefts_app, rights_app. cbn [set_hole lefts rights sib]. rewrite (all_fr q1) by auto.
              cbn [app]. rewrite lefts_app in Jb. cbn [lefts] in Jb.
              eapply eq_ind; [exact Jb|]. now repeat (rewrite <- ?app_assoc; cbn [app]).
      * assert (EB : rights p = []) by (apply all_fr; exact NS). cbn [right_mergable].
        destruct p as [|f0 p0]; [destruct p1; discriminate|].
        rewrite Ep.
        rewrite oadd_plus by lia.
        rewrite Ep in Wp, Cp.
        destruct (absorb_ok p1 (FR fc fl hp flm frm) p2 (Hole (h_off hp) (plus (h_size hp) size)) Wp Cp) as (t' & -> & O' & Ht').
        { apply (okh_valid lo). unfold valid, plus. cbn [h_off h_size]. rewrite (proj2 (N.eqb_neq (h_size hp) MAXV)) by auto.
          cbn [orb]. destruct (N.eqb_spec size MAXV); lia. }
        apply Fin; auto. rewrite Ht', !lefts_app, !rights_app. cbn [set_hole lefts rights].
        rewrite (all_fl _ Fp1), app_nil_r.
        replace (rights p1 ++ rights p2) with (rights (f0 :: p0)) by (rewrite Ep, rights_app; reflexivity).
        rewrite app_assoc, <- app_assoc. cbn [app].
        eapply join_left; eauto. rewrite EB. intros ? [].
  - cbn [negb] in NP. assert (EA : lefts p = []) by (apply all_fl; exact NP). cbn [left_mergable].
    assert (HAp : forall x, In x (lefts p) -> h_off x + h_size x <> off) by (rewrite EA; intros ? []).
    destruct (nearest true p) as [ns|].
    + destruct NS as (q1 & g & q2 & Eq & <- & Fg & Fq1). cbn [negb] in Fq1.
      destruct g as [gc hs glm grm gr|]; [|discriminate].
      assert (EB : rights p = hs :: (holes gr ++ rights q2)).
      { rewrite Eq, rights_app. cbn [rights]. now rewrite (all_fr _ Fq1). }
      destruct (HB hs) as (Ms & Ls). { rewrite EB. cbn; auto. }
      assert (Vs : valid lo hs). { apply HV, in_or_app. right. rewrite EB. cbn; auto. }
      destruct Vs as (T1 & T2 & T3 & T4).
      assert (HBs : off + size < h_off hs -> forall y, In y (rights p) -> off + size <> h_off y).
      { intros Hl y Hy. rewrite EB in Hy, Sp. destruct Hy as [<-|Hy]; [lia|].
        apply sep_mid in Sp. destruct Sp as (_ & _ & _ & G). destruct (G y Hy). lia. }
      unfold right_mergable. assert (Eh2 : hole_at (length q1) p = Some hs) by (rewrite Eq, hole_at_app; auto). rewrite Eh2.
      rewrite oadd_plus by lia. assert (Epl2 : plus off size = off + size).
      { unfold plus. rewrite (le_lim _ V2). destruct (N.eqb_spec size MAXV); [easy|auto]. }
      rewrite Epl2. unfold olt, both_max. rewrite (le_lim _ T2), andb_false_r. cbn [negb].
      destruct (N.ltb_spec (off + size) (h_off hs)) as [Hlt2|Hge2].
      * destruct p as [|f0 p0]; [destruct q1; discriminate|].
        destruct (recalc_ok al (f0 :: p0) 0 0 (Hole off size) 0 (okh_valid _ _ V) Wp) as (p' & -> & W' & S').
        destruct (insert_fixup_ok al (length p') p' (T Red E (Hole off size) 0 0 E) 0) as (t' & -> & O' & Ht'); auto.
        { constructor; auto using rbE. }
        { eapply same_ctx; eauto. }
        { cbn [wl mh]. repeat split; auto. eapply okh_valid; eauto. }
        apply Fin; auto. rewrite Ht', (same_lefts _ _ S'), (same_rights _ _ S').
        apply join_none; auto.
      * assert (E2 : off + size = h_off hs) by lia. rewrite E2, N.eqb_refl.
        destruct p as [|f0 p0]; [destruct q1; discriminate|].
        rewrite Eq.
        unfold osubeq. rewrite (le_lim _ T2). destruct (N.eqb_spec size MAXV); [easy|]. cbn [negb].
        destruct (N.leb_spec size (h_off hs)); [|lia].
        rewrite oadd_plus by lia.
        rewrite Eq in Wp, Cp.
        destruct (absorb_ok q1 (FL gc hs glm grm gr) q2 (Hole (h_off hs - size) (plus (h_size hs) size)) Wp Cp) as (t' & -> & O' & Ht').
        { apply (okh_valid lo). unfold valid, plus. cbn [h_off h_size]. rewrite (proj2 (N.eqb_neq size MAXV)) by auto.
          rewrite orb_false_r. destruct (N.eqb_spec (h_size hs) MAXV); lia. }
        apply Fin; auto. rewrite Ht', !lefts_app, !rights_app. cbn [set_hole lefts rights].
        replace (h_off hs - size) with off by lia.
        rewrite (all_fr _ Fq1). cbn [app].
        replace (lefts q2 ++ lefts q1) with (lefts (f0 :: p0)) by (rewrite Eq, lefts_app; reflexivity).
        eapply join_right; eauto.
    + assert (EB : rights p = []) by (apply all_fr; exact NS). cbn [right_mergable].
      assert (J : joined lo (lefts p) (rights p) off size (lefts p ++ Hole off size :: rights p)).
      { apply join_none; auto. rewrite EB. intros ? []. }
      destruct p as [|f0 p0].
      * destruct (insert_fixup_ok al 0 [] (T Red E (Hole off size) 0 0 E) 0) as (t' & -> & O' & Ht'); auto.
        { constructor; auto using rbE. }
        { cbn [wl mh]. repeat split; auto. eapply okh_valid; eauto. }
        apply Fin; auto. rewrite Ht'. exact J.
      * destruct (recalc_ok al (f0 :: p0) 0 0 (Hole off size) 0 (okh_valid _ _ V) Wp) as (p' & -> & W' & S').
        destruct (insert_fixup_ok al (length p') p' (T Red E (Hole off size) 0 0 E) 0) as (t' & -> & O' & Ht'); auto.
        { constructor; auto using rbE. }
        { eapply same_ctx; eauto. }
        { cbn [wl mh]. repeat split; auto. eapply okh_valid; eauto. }
        apply Fin; auto. rewrite Ht', (same_lefts _ _ S'), (same_rights _ _ S'). exact J.
Qed.

(** SearchFirstFitBySize. *)
Lemma mh_bound : forall t x, wl al t -> In x (holes t) -> esz al x <= mh al t.
Proof.
  induction t as [|c l IHl h lm rm r IHr]; intros x W Hx; [destruct Hx|].
  apply wl_T in W. destruct W as (-> & -> & _ & Wl & Wr). cbn [holes mh] in *. unfold top3.
  apply in_app_or in Hx. destruct Hx as [Hx|[<-|Hx]].
  - specialize (IHl _ Wl Hx). lia.
  - lia.
  - specialize (IHr _ Wr Hx). lia.
Qed.

Lemma plug_app : forall p q t, plug t (p ++ q) = plug (plug t p) q.
Proof. induction p; intros; cbn; auto. Qed.

Lemma first_fit_ok : forall t p size, 0 < size -> wl al t -> size <= mh al t ->
  exists c l h lm rm r p', first_fit al size t p = Some (T c l h lm rm r, p' ++ p) /\
    plug (T c l h lm rm r) p' = t /\ size <= esz al h /\
    forall x, In x (lefts p' ++ holes l) -> esz al x < size.
Proof.
  induction t as [|c l IHl h lm rm r IHr]; intros p size Hs W Hm; [cbn in Hm; lia|].
  pose proof W as W0. apply wl_T in W. destruct W as (-> & -> & Oh & Wl & Wr). cbn [first_fit mh] in *.
  assert (Ee : eff al h = Some (esz al h)) by (unfold okh, esz in *; destruct (eff al h); congruence).
  rewrite Ee.
  assert (GoL : size <= mh al l -> exists c0 l0 h0 lm0 rm0 r0 p',
    first_fit al size l (FL c h (mh al l) (mh al r) r :: p) = Some (T c0 l0 h0 lm0 rm0 r0, p' ++ p) /\
    plug (T c0 l0 h0 lm0 rm0 r0) p' = T c l h (mh al l) (mh al r) r /\
    size <= esz al h0 /\ (forall x : hole, In x (lefts p' ++ holes l0) -> esz al x < size)).
  { intros Hl. destruct (IHl (FL c h (mh al l) (mh al r) r :: p) size Hs Wl Hl) as (c0 & l0 & h0 & lm0 & rm0 & r0 & p' & E1 & E2 & E3 & E4).
    exists c0, l0, h0, lm0, rm0, r0, (p' ++ [FL c h (mh al l) (mh al r) r]).
    rewrite <- app_assoc. split; [exact E1|]. split.
    - rewrite plug_app, E2. reflexivity.
    - split; auto. intros x Hx. apply E4. rewrite lefts_app in Hx. cbn [lefts app] in Hx. exact Hx. }
  destruct (N.leb_spec size (esz al h)) as [H1|H1].
  - destruct (N.leb_spec size (mh al l)) as [H2|H2]; [now apply GoL|].
    exists c, l, h, (mh al l), (mh al r), r, []. repeat split; auto. intros x Hx. cbn [lefts app] in Hx.
    pose proof (mh_bound _ _ Wl Hx). lia.
  - destruct (N.leb_spec size (mh al l)) as [H2|H2]; [now apply GoL|].
    destruct (N.leb_spec size (mh al r)) as [H3|H3]; [|unfold top3 in Hm; lia].
    destruct (IHr (FR c l h (mh al l) (mh al r) :: p) size Hs Wr H3) as (c0 & l0 & h0 & lm0 & rm0 & r0 & p' & E1 & E2 & E3 & E4).
    exists c0, l0, h0, lm0, rm0, r0, (p' ++ [FR c l h (mh al l) (mh al r)]).
    rewrite <- app_assoc. split; [exact E1|]. split.
    + rewrite plug_app, E2. reflexivity.
    + split; auto. intros x Hx. rewrite lefts_app in Hx. cbn [lefts app] in Hx.
      apply in_app_or in Hx. destruct Hx as [Hx|Hx].
      * apply in_app_or in Hx. destruct Hx as [Hx|Hx]; [|apply E4, in_or_app; auto].
        apply in_app_or in Hx. destruct Hx as [Hx|[<-|[]]]; [|auto].
        pose proof (mh_bound _ _ Wl Hx). lia.
      * apply E4, in_or_app; auto.
Qed.

(** All of [size] bytes from [a] are free. *)
Definition fits (hs : list hole) (a size : N) : Prop := forall b, a <= b < a + size -> free_byte b hs.

Lemma sep_in2 lo hs x y : sep lo hs -> In x hs -> In y hs -> x = y \/ gap x y \/ gap y x.
Proof.
  intros (_ & S) Hx Hy. apply in_split in Hx. destruct Hx as (h1 & h2 & ->).
  apply ss_mid in S. destruct S as (_ & G1 & G2). apply in_app_or in Hy. cbn in Hy.
  destruct Hy as [Hy|[->|Hy]]; auto.
Qed.

Lemma fits_in_one lo hs a size : sep lo hs -> 0 < size -> fits hs a size ->
  exists x, In x hs /\ h_off x <= a /\ (h_size x = MAXV \/ a + size <= h_off x + h_size x).
Proof.
  intros S Hs F. destruct (F a ltac:(lia)) as (x & Hx & H1 & H2). exists x. split; [auto|]. split; [auto|].
  destruct (N.eq_dec (h_size x) MAXV) as [Mx|Mx]; [auto|].
  destruct H2 as [H2|H2]; [auto|].
  destruct (N.le_gt_cases (a + size) (h_off x + h_size x)) as [Hle|Hgt]; auto. exfalso.
  destruct (F (h_off x + h_size x) ltac:(lia)) as (y & Hy & K1 & K2).
  destruct (sep_in2 _ _ _ _ S Hx Hy) as [->|[G|G]].
  - destruct S as (Sv & _). pose proof (proj1 (Forall_forall _ _) Sv _ Hy) as (_ & ? & ? & ?).
    destruct K2; [easy|lia].
  - destruct G. lia.
  - destruct G as (G1 & G2). destruct K2 as [K2|K2]; [congruence|].
    destruct S as (Sv & _). pose proof (proj1 (Forall_forall _ _) Sv _ Hx) as (_ & ? & ? & ?). lia.
Qed.

Lemma esz_valid lo x : valid lo x -> esz al x = (if h_size x =? MAXV then MAXV
                   else if h_off x + h_size x <? align (h_off x) al then 0
                   else h_off x + h_size x - align (h_off x) al).
Proof. intros V. unfold esz. now rewrite (eff_valid lo _ V). Qed.

Theorem remove_ok lo t size inf : ok al t -> sep lo (holes t) -> 0 < size ->
  In inf (holes t) -> h_size inf = MAXV -> h_off inf + al + size <= LIM ->
  exists t' ans, remove al t size = Some (t', ans) /\ ok al t' /\ sep lo (holes t') /\
    ans mod al = 0 /\ ans + size <= LIM /\ fits (holes t) ans size /\
    (forall a, a mod al = 0 -> fits (holes t) a size -> ans <= a) /\
    (forall b, free_byte b (holes t') <-> free_byte b (holes t) /\ ~ ans <= b < ans + size).
Proof.
  intros Ok Sp Hs Hinf Minf Linf.
  pose proof Ok as (W & (n & R) & Bk).
  assert (L : LIM < MAXV) by (unfold LIM, MAXV; lia).
  pose proof (proj1 (Forall_forall _ _) (proj1 Sp)) as Vs.
  assert (Hm : size <= mh al t).
  { pose proof (mh_bound t inf W Hinf) as Hb. rewrite (esz_valid lo) in Hb by auto. rewrite Minf, N.eqb_refl in Hb. lia. }
  destruct t as [|c0 l0 h0 lm0 rm0 r0]; [destruct Hinf|].
  unfold remove. assert (Oh0 : okh al h0) by (cbn [wl] in W; tauto).
  assert (Ee : eff al h0 = Some (esz al h0)) by (unfold okh, esz in *; destruct (eff al h0); congruence).
  rewrite Ee. cbn [mh] in Hm.
  assert (Hg : (esz al h0 <? size) && (lm0 <? size) && (rm0 <? size) = false).
  { unfold top3 in Hm. destruct (N.ltb_spec (esz al h0) size), (N.ltb_spec lm0 size), (N.ltb_spec rm0 size); cbn; auto. lia. }
  rewrite Hg. cbn [negb].
  destruct (first_fit_ok (T c0 l0 h0 lm0 rm0 r0) [] size Hs W Hm) as (c & l & h & lm & rm & r & p & -> & Pl & He & Hbefore).
  rewrite app_nil_r.
  set (t := T c0 l0 h0 lm0 rm0 r0) in *. clearbody t. clear c0 l0 h0 lm0 rm0 r0 Ee Hg Oh0 Hm.
  assert (Hh : holes t = (lefts p ++ holes l) ++ h :: holes r ++ rights p).
  { rewrite <- Pl, holes_plug. cbn [holes]. now repeat (rewrite <- ?app_assoc; cbn [app]). }
  assert (Vh : valid lo h). { apply Vs. rewrite Hh. apply in_or_app; cbn; auto. }
  assert (Sp0 := Sp). rewrite Hh in Sp0. apply sep_mid in Sp0. destruct Sp0 as (S0 & _ & G1 & G2).
  rewrite (esz_valid lo) in He by auto. pose proof Vh as (V1 & V2 & V3 & V4).
  pose proof (align_ge _ V2) as A1. pose proof (align_mult _ V2) as A2.
  set (ans := align (h_off h) al) in *.
  (* the request fits into the hole *)
  assert (Fit : ans + size <= LIM /\ (h_size h = MAXV \/ (h_size h <> MAXV /\ ans + size <= h_off h + h_size h))).
  { destruct (N.eqb_spec (h_size h) MAXV) as [E0|E0].
    - split; auto. assert (h = inf) as ->; [|lia].
      destruct (sep_in2 lo _ h inf Sp) as [->|[(G & _)|(G & _)]]; auto; try congruence.
      rewrite Hh. apply in_or_app; cbn; auto.
    - destruct V4; [easy|]. destruct (N.ltb_spec (h_off h + h_size h) ans); [lia|]. lia. }
  destruct Fit as (F1 & F2).
  assert (Fits : fits (holes t) ans size).
  { intros b Hb. rewrite Hh. apply free_mid. right. split; lia. }
  assert (Least : forall a, a mod al = 0 -> fits (holes t) a size -> ans <= a).
  { intros a Ha Hf. destruct (fits_in_one lo _ _ _ Sp Hs Hf) as (x & Hx & X1 & X2).
    pose proof (Vs _ Hx) as Vx. destruct Vx as (Vx1 & Vx2 & Vx3 & Vx4).
    rewrite Hh in Hx. apply in_app_or in Hx. destruct Hx as [Hx|[<-|Hx]].
    - exfalso. pose proof (Hbefore x Hx) as Hb. rewrite (esz_valid lo) in Hb by (unfold valid; auto).
      pose proof (align_least _ a Vx2 X1 Ha) as Al.
      destruct (N.eqb_spec (h_size x) MAXV); [lia|].
      destruct X2 as [X2|X2]; [easy|].
      destruct (N.ltb_spec (h_off x + h_size x) (align (h_off x) al)); lia.
    - apply align_least; auto.
    - destruct (G2 x Hx) as (N1 & N2). destruct F2 as [F2|(F2 & F3)]; [easy|]. lia. }
  destruct (focus_rb p (T c l h lm rm r) [] n) as (k & Rk & Ck).
  { now rewrite Pl. } { rewrite Pl. exact Bk. }
  rewrite app_nil_r in Ck.
  destruct (focus_wl al p (T c l h lm rm r)) as (Wn & Sg). { now rewrite Pl. }
  assert (Wp : wlp al p (mh al (T c l h lm rm r))).
  { rewrite <- (app_nil_r p). apply seg_app. eexists; split; [exact Sg|exact I]. }
  assert (E1 : oadd ans size = Some (ans + size)).
  { rewrite oadd_plus by lia. unfold plus. destruct (N.eqb_spec ans MAXV), (N.eqb_spec size MAXV); cbn [orb]; auto; lia. }
  rewrite E1.
  assert (E2 : oadd (h_off h) (h_size h) = Some (if h_size h =? MAXV then MAXV else h_off h + h_size h)).
  { rewrite oadd_plus by lia. unfold plus. rewrite (le_lim _ V2). cbn [orb]. auto. }
  rewrite E2. unfold ole, both_max. rewrite (le_lim (ans + size)) by auto. cbn [andb negb].
  replace (ans + size <=? (if h_size h =? MAXV then MAXV else h_off h + h_size h)) with true.
  2:{ symmetry. apply N.leb_le. destruct (N.eqb_spec (h_size h) MAXV); lia. }
  (* the tree with a new hole in place of [h] *)
  assert (Repl : forall h', okh al h' -> exists p', recalc al lm rm h' p = Some p' /\
     same p p' /\ wlp al p' (mh al (T c l h' lm rm r)) /\ wl al (T c l h' lm rm r) /\
     rb (T c l h' lm rm r) k /\ ctx p' (is_red (T c l h' lm rm r)) k /\
     ok al (plug (T c l h' lm rm r) p') /\
     holes (plug (T c l h' lm rm r) p') = (lefts p ++ holes l) ++ h' :: holes r ++ rights p).
  { intros h' O'. destruct (recalc_ok al p lm rm h' _ O' Wp) as (p' & -> & W' & S'). exists p'.
    split; [reflexivity|]. split; [auto|]. split; [exact W'|].
    assert (Wn' : wl al (T c l h' lm rm r)) by (cbn [wl] in *; tauto). split; [auto|].
    assert (Rk' : rb (T c l h' lm rm r) k) by (inversion Rk; subst; constructor; auto). split; [auto|].
    assert (Ck' : ctx p' (is_red (T c l h' lm rm r)) k) by (eapply same_ctx; eauto). split; [auto|].
    split; [eapply plug_ok; eauto|].
    rewrite holes_plug, (same_lefts _ _ S'), (same_rights _ _ S'). cbn [holes].
    now repeat (rewrite <- ?app_assoc; cbn [app]). }
  (* membership of a byte in the hole and in the part cut out *)
  assert (Fb : forall hs', (forall b, free_byte b hs' <-> free_byte b ((lefts p ++ holes l) ++ holes r ++ rights p) \/ in_hole b h /\ ~ ans <= b < ans + size) ->
     forall b, free_byte b hs' <-> free_byte b (holes t) /\ ~ ans <= b < ans + size).
  { intros hs' H b. rewrite H, Hh, free_mid.
    assert (Ot : free_byte b ((lefts p ++ holes l) ++ holes r ++ rights p) -> ~ ans <= b < ans + size).
    { intros (x & Hx & X1 & X2) Hb.
      apply in_app_or in Hx. destruct Hx as [Hx|Hx].
      - destruct (G1 x Hx) as (? & ?). destruct X2; [easy|lia].
      - destruct (G2 x Hx) as (? & ?). destruct F2 as [F2|(F2 & F3)]; [easy|lia]. }
    tauto. }
  destruct (N.eqb_spec ans (h_off h)) as [EA|EA].
  - assert (E3 : oadd (h_off h) size = Some (h_off h + size)) by (rewrite <- EA; exact E1).
    rewrite E3.
    assert (E4 : osubeq (h_size h) size = Some (if h_size h =? MAXV then MAXV else h_size h - size)).
    { unfold osubeq. destruct (N.eqb_spec (h_size h) MAXV) as [->|]; auto.
      destruct (N.eqb_spec size MAXV); [lia|]. cbn [negb]. destruct (N.leb_spec size (h_size h)); auto. lia. }
    rewrite E4. set (s' := if h_size h =? MAXV then MAXV else h_size h - size).
    assert (Es : (h_size h = MAXV /\ s' = MAXV) \/ (h_size h <> MAXV /\ s' = h_size h - size)).
    { unfold s'. destruct (N.eqb_spec (h_size h) MAXV); auto. }
    clearbody s'. cbv zeta.
    destruct (N.eqb_spec s' 0) as [Z|Z].
    + destruct (Repl (Hole (h_off h + size) s')) as (p' & -> & Sm & W' & Wn' & Rk' & Ck' & O' & H').
      { rewrite Z. apply okh_dying. left. lia. }
      destruct (raw_remove_ok al _ _ _ _ _ _ _ _ _ Rk' Ck' Wn' W') as (t' & -> & O2 & H2).
      exists t', ans. split; [reflexivity|]. split; [auto|].
      rewrite (same_lefts _ _ Sm), (same_rights _ _ Sm) in H2.
      assert (H3 : holes t' = (lefts p ++ holes l) ++ holes r ++ rights p) by (rewrite H2; now rewrite <- !app_assoc).
      rewrite H3. split; [exact S0|]. split; [auto|]. split; [auto|]. split; [auto|]. split; [auto|].
      apply Fb. intros b. unfold in_hole. split; [auto|]. intros [?|?]; auto. exfalso. lia.
    + assert (V' : valid lo (Hole (h_off h + size) s')).
      { unfold valid. cbn [h_off h_size]. lia. }
      destruct (Repl (Hole (h_off h + size) s')) as (p' & -> & Sm & W' & Wn' & Rk' & Ck' & O' & H').
      { eapply okh_valid; eauto. }
      eexists _, ans. split; [reflexivity|]. split; [auto|]. rewrite H'.
      split; [|split; [auto|]; split; [auto|]; split; [auto|]; split; [auto|]].
      * apply sep_mid. split; [auto|]. split; [auto|]. unfold gap in *. cbn [h_off h_size]. split.
        -- intros y Hy. destruct (G1 y Hy). split; auto. lia.
        -- intros y Hy. destruct (G2 y Hy). split; lia.
      * apply Fb. intros b. rewrite free_mid. unfold in_hole. cbn [h_off h_size].
        split; (intros [?|?]; [left; assumption|right; lia]).
  - destruct (N.eqb_spec (ans + size) (if h_size h =? MAXV then MAXV else h_off h + h_size h)) as [EB|EB].
    + assert (M : h_size h <> MAXV). { intros M. rewrite M, N.eqb_refl in EB. lia. }
      rewrite (proj2 (N.eqb_neq _ _) M) in EB.
      assert (E4 : osubeq (h_size h) size = Some (h_size h - size)).
      { unfold osubeq. rewrite (proj2 (N.eqb_neq _ _) M).
        destruct (N.eqb_spec size MAXV); [lia|]. cbn [negb]. destruct (N.leb_spec size (h_size h)); auto. lia. }
      rewrite E4. cbv zeta.
      assert (V' : valid lo (Hole (h_off h) (h_size h - size))).
      { unfold valid. cbn [h_off h_size]. lia. }
      destruct (Repl (Hole (h_off h) (h_size h - size))) as (p' & -> & Sm & W' & Wn' & Rk' & Ck' & O' & H').
      { eapply okh_valid; eauto. }
      eexists _, ans. split; [reflexivity|]. split; [auto|]. rewrite H'.
      split; [|split; [auto|]; split; [auto|]; split; [auto|]; split; [auto|]].
      * apply sep_mid. split; [auto|]. split; [auto|]. unfold gap in *. cbn [h_off h_size]. split.
        -- intros y Hy. destruct (G1 y Hy). split; auto.
        -- intros y Hy. destruct (G2 y Hy). split; lia.
      * apply Fb. intros b. rewrite free_mid. unfold in_hole. cbn [h_off h_size].
        split; (intros [?|?]; [left; assumption|right; lia]).
    + assert (E4 : osub ans (h_off h) = Some (ans - h_off h)).
      { unfold osub. rewrite (le_lim _ V2). cbn [negb]. rewrite (le_lim ans) by lia. destruct (N.leb_spec (h_off h) ans); auto. lia. }
      rewrite E4. cbv zeta.
      assert (V' : valid lo (Hole (h_off h) (ans - h_off h))).
      { unfold valid. cbn [h_off h_size]. lia. }
      destruct (Repl (Hole (h_off h) (ans - h_off h))) as (p' & -> & Sm & W' & Wn' & Rk' & Ck' & O' & H').
      { eapply okh_valid; eauto. }
      set (e2 := if h_size h =? MAXV then MAXV else h_off h + h_size h) in *.
      assert (Ee2 : (h_size h = MAXV /\ e2 = MAXV) \/ (h_size h <> MAXV /\ e2 = h_off h + h_size h /\ e2 <= LIM)).
      { unfold e2. destruct (N.eqb_spec (h_size h) MAXV); auto. right. split; auto. split; auto. lia. }
      clearbody e2.
      set (s2 := if e2 =? MAXV then MAXV else e2 - (ans + size)).
      assert (E5 : osub e2 (ans + size) = Some s2).
      { unfold osub, s2. rewrite (le_lim (ans + size)) by auto. cbn [negb]. destruct (N.eqb_spec e2 MAXV) as [->|]; auto.
        destruct (N.leb_spec (ans + size) e2); auto. lia. }
      rewrite E5.
      assert (Es2 : (h_size h = MAXV /\ s2 = MAXV) \/ (h_size h <> MAXV /\ s2 = e2 - (ans + size))).
      { unfold s2. destruct (N.eqb_spec e2 MAXV); [left; split; [lia|auto]|]. right. split; [lia|auto]. }
      clearbody s2.
      assert (S2 : sep lo (holes (plug (T c l (Hole (h_off h) (ans - h_off h)) lm rm r) p'))).
      { rewrite H'. apply sep_mid. split; [auto|]. split; [auto|]. unfold gap in *. cbn [h_off h_size]. split.
        -- intros y Hy. destruct (G1 y Hy). split; auto.
        -- intros y Hy. destruct (G2 y Hy). split; lia. }
      destruct (insert_ok lo _ (ans + size) s2 O' S2) as (t' & -> & O2 & S3 & H3).
      { unfold valid. cbn [h_off h_size]. lia. }
      { intros b Hb. rewrite H', free_mid. unfold in_hole in *. cbn [h_off h_size] in *. intros [(x & Hx & X1 & X2)|H0]; [|lia].
        apply in_app_or in Hx. destruct Hx as [Hx|Hx].
        - destruct (G1 x Hx) as (? & ?). destruct X2; [easy|lia].
        - destruct (G2 x Hx) as (? & ?). lia. }
      exists t', ans. split; [reflexivity|]. split; [auto|]. split; [auto|].
      split; [auto|]. split; [auto|]. split; [auto|]. split; [auto|].
      apply Fb. intros b. rewrite H3, H', free_mid. unfold in_hole. cbn [h_off h_size].
      split; [intros [[?|?]|?]|intros [?|?]]; try (left; assumption); try (left; left; assumption); try (right; lia).
      destruct (N.lt_ge_cases b ans); [left; right; lia|right; lia].
Qed.

End Align.
