(** A query finds what the messages have made. *)
From Verif Require Import Base Bytes LtSpec KOrd LtTreeProofs PivotModel PivotProofs FtModel FtSpec FtSeg FtRows FtInv FtPut FtOps FtOps3.
From Coq Require Import Sorted Permutation.
Open Scope nat_scope.

Section Q.
Context {E : env} {TM : timing E} (ok : cmp_ok (kcmp E)).
Local Notation c := (kcmp E).
Local Notation L := (L E).
Local Notation G := (G E).
Local Notation msg := (gmsg (A E)).
Local Notation rows := (rows E).
Local Notation ent := (ent E).
Local Notation slot := (slot E).
Local Notation leaf := (leaf E).
Local Notation tree := (tree E).
Local Notation ancs := (ancs E).
Implicit Types (pend buf : list ent) (t : tree) (an : ancs).

(** ** Sorting *)
Definition conc (k : bytes) (e : ent) : bool := if concerns_dec ok k (e_msg e) then true else false.
Lemma conc_iff k e : conc k e = true <-> concerns k (e_msg e).
Proof. unfold conc. destruct (concerns_dec ok k (e_msg e)); split; congruence || auto. Qed.
Definition sel (k : bytes) (mx : N) (es : list ent) : list ent := filter (fun e => conc k e && (mx <? e_msn e)%N) es.

Lemma sel_In k mx es e : In e (sel k mx es) <-> In e es /\ concerns k (e_msg e) /\ (mx < e_msn e)%N.
Proof. unfold sel. rewrite filter_In, andb_true_iff, conc_iff, N.ltb_lt. tauto. Qed.

Lemma ins_msn_perm (e : ent) (l : list ent) : Permutation (ins_msn e l) (e :: l).
Proof.
  induction l as [|x l IH]; cbn; [reflexivity|]. destruct (e_msn e <=? e_msn x)%N; [reflexivity|]. rewrite IH. apply perm_swap.
Qed.
Lemma sort_msn_perm (l : list ent) : Permutation (sort_msn l) l.
Proof. induction l as [|x l IH]; cbn; [reflexivity|]. rewrite ins_msn_perm, IH. reflexivity. Qed.
Lemma ins_msn_sorted (e : ent) (l : list ent) : StronglySorted N.le (map e_msn l) -> StronglySorted N.le (map e_msn (ins_msn e l)).
Proof.
  induction l as [|x l IH]; cbn; intros S; [constructor; constructor|]. inversion S as [|? ? S' F]; subst.
  destruct (N.leb_spec (e_msn e) (e_msn x)).
  - cbn. constructor; [exact S|]. constructor; [auto|]. eapply Forall_impl; [|exact F]. cbn. lia.
  - cbn. constructor; [auto|]. rewrite Forall_map in *. rewrite ins_msn_perm. constructor; [lia|exact F].
Qed.
Lemma sort_msn_sorted (l : list ent) : StronglySorted N.le (map e_msn (sort_msn l)).
Proof. induction l as [|x l IH]; cbn; [constructor|]. apply ins_msn_sorted; auto. Qed.

Lemma SS_strict (l : list N) : StronglySorted N.le l -> NoDup l -> StronglySorted N.lt l.
Proof.
  induction l as [|x l IH]; intros S D; [constructor|]. inversion S as [|? ? S' F]; subst. inversion D as [|? ? NI D']; subst.
  constructor; auto. rewrite Forall_forall in *. intros y Iy. specialize (F y Iy). assert (x <> y) by (intros ->; contradiction). lia.
Qed.
Lemma SS_NoDup (l : list N) : StronglySorted N.lt l -> NoDup l.
Proof.
  induction l as [|x l IH]; intros S; [constructor|]. inversion S as [|? ? S' F]; subst. constructor; auto. intros I. rewrite Forall_forall in F. specialize (F x I). lia.
Qed.
Lemma SS_filter (p : ent -> bool) l : StronglySorted N.lt (map e_msn l) -> StronglySorted N.lt (map e_msn (filter p l)).
Proof.
  induction l as [|x l IH]; cbn; intros S; [constructor|]. inversion S as [|? ? S' F]; subst. destruct (p x); auto. cbn. constructor; auto.
  rewrite Forall_map, Forall_forall in *. intros y Iy. apply filter_In in Iy. apply F. tauto.
Qed.

Lemma filter_perm2 {X} (p q : X -> bool) l : (forall x, p x = true -> q x = false) -> Permutation (filter p l ++ filter q l) (filter (fun x => p x || q x) l).
Proof.
  intros D. induction l as [|x l IH]; cbn; [reflexivity|]. destruct (p x) eqn:P; cbn.
  - rewrite (D x P). rewrite IH. reflexivity.
  - destruct (q x); cbn; [|exact IH]. rewrite <- IH. symmetry. apply Permutation_middle.
Qed.

Lemma filter_ins_key k (e : ent) (l : list ent) : filter (conc k) (ins_key e l) = filter (conc k) (e :: l) \/ exists x, In x (e :: l) /\ once (e_msg x) = false.
Proof.
  induction l as [|x l IH]; [left; reflexivity|]. cbn [ins_key]. destruct (kleb c (m_key (e_msg e)) (m_key (e_msg x))) eqn:Q; [left; reflexivity|].
  destruct IH as [IH|(y & Iy & O)].
  - destruct (once (e_msg x)) eqn:O; [|right; exists x; cbn; auto]. destruct (once (e_msg e)) eqn:O2; [|right; exists e; cbn; auto].
    left. cbn [filter] in *. rewrite IH. destruct (conc k e) eqn:C1, (conc k x) eqn:C2; auto. exfalso.
    apply conc_iff in C1, C2. apply (concerns_iff) in C1, C2. destruct C1 as [|C1]; [congruence|]. destruct C2 as [|C2]; [congruence|].
    assert (kle c (m_key (e_msg e)) (m_key (e_msg x))) by kord ok. apply kleb_true in H. congruence.
  - right. exists y. cbn in *. intuition.
Qed.
Lemma filter_sort_key k (l : list ent) : (forall e, In e l -> once (e_msg e) = true) -> filter (conc k) (sort_key l) = filter (conc k) l.
Proof.
  assert (PM : forall (e : ent) (l : list ent), Permutation (ins_key e l) (e :: l)).
  { intros e. induction l0 as [|x l0 IH]; cbn; [reflexivity|]. destruct (kleb c (m_key (e_msg e)) (m_key (e_msg x))); [reflexivity|]. rewrite IH. apply perm_swap. }
  assert (PS : forall l : list ent, Permutation (sort_key l) l).
  { induction l0 as [|x l0 IH]; cbn; [reflexivity|]. rewrite PM, IH. reflexivity. }
  induction l as [|e l IH]; intros O; [reflexivity|]. cbn [sort_key fold_right].
  destruct (filter_ins_key k e (sort_key l)) as [Q|(x & Ix & Ox)].
  - change (fold_right ins_key [] l) with (sort_key l). rewrite Q. cbn [filter]. rewrite IH by (intros; apply O; cbn; auto). reflexivity.
  - exfalso. assert (In x (e :: l)). { destruct Ix as [<-|Ix]; [cbn; auto|]. right. eapply Permutation_in; [apply PS|exact Ix]. } rewrite O in Ox by auto. discriminate.
Qed.
Lemma sort_key_In (e : ent) (l : list ent) : In e (sort_key l) <-> In e l.
Proof.
  assert (PM : forall (e : ent) (l : list ent), Permutation (ins_key e l) (e :: l)).
  { intros e0. induction l0 as [|x l0 IH]; cbn; [reflexivity|]. destruct (kleb c (m_key (e_msg e0)) (m_key (e_msg x))); [reflexivity|]. rewrite IH. apply perm_swap. }
  assert (PS : forall l : list ent, Permutation (sort_key l) l).
  { induction l0 as [|x l0 IH]; cbn; [reflexivity|]. rewrite PM, IH. reflexivity. }
  split; apply Permutation_in; [apply PS|symmetry; apply PS].
Qed.
Lemma filter_filter2 {X} (p q : X -> bool) l : filter (fun x => p x && q x) l = filter q (filter p l).
Proof. induction l as [|x l IH]; cbn; [reflexivity|]. destruct (p x); cbn; [destruct (q x); congruence|exact IH]. Qed.
Lemma sel_sort_key k mx (l : list ent) : (forall e, In e l -> once (e_msg e) = true) -> sel k mx (sort_key l) = sel k mx l.
Proof. intros O. unfold sel. rewrite !filter_filter2, filter_sort_key by exact O. reflexivity. Qed.

(** ** Applying a list of messages *)
Lemma apply_list_find k (g : G) mx es : forall r, rsorted r ->
  rows_find k (apply_list g mx es r) = fold_left (fun o e => effect g (e_msg e) o) (sel k mx es) (rows_find k r).
Proof.
  induction es as [|e es IH]; intros r S; [reflexivity|]. unfold apply_list. cbn [fold_left]. fold (apply_list g mx es (do_bn_apply g mx e r)).
  assert (S' : rsorted (do_bn_apply g mx e r)) by (unfold do_bn_apply; destruct (mx <? e_msn e)%N; auto; apply (bn_apply_sorted ok); auto).
  rewrite IH by exact S'. unfold sel. cbn [filter]. fold (sel k mx es). unfold do_bn_apply. destruct (mx <? e_msn e)%N; [|rewrite andb_false_r; reflexivity].
  rewrite andb_true_r. destruct (conc k e) eqn:C.
  - cbn [fold_left]. rewrite (bn_apply_find ok) by (auto; apply conc_iff; auto). reflexivity.
  - rewrite (bn_apply_other ok); auto. intros Q. apply conc_iff in Q. congruence.
Qed.
Lemma apply_list_sorted (g : G) mx es : forall r, rsorted r -> rsorted (apply_list g mx es r).
Proof.
  induction es as [|e es IH]; intros r S; [exact S|]. apply (IH (do_bn_apply g mx e r)). unfold do_bn_apply. destruct (mx <? e_msn e)%N; auto. apply (bn_apply_sorted ok); auto.
Qed.
Lemma apply_list_rin lo hi (g : G) mx es : (forall e, In e es -> rel lo hi (e_msg e)) -> forall r, rin lo hi r -> rin lo hi (apply_list g mx es r).
Proof.
  induction es as [|e es IH]; intros R r S; [exact S|]. apply (IH ltac:(intros; apply R; cbn; auto) (do_bn_apply g mx e r)). unfold do_bn_apply.
  destruct (mx <? e_msn e)%N; auto. apply bn_apply_rin; auto. apply R; cbn; auto.
Qed.

Lemma ko_fold H top k (g : G) : hist_ok H top -> forall (es : list ent) (T T' : N -> Prop) r,
  key_ok H k T r -> StronglySorted N.lt (map e_msn es) ->
  (forall e, In e es -> In (e_msn e, e_msg e) H /\ concerns k (e_msg e) /\ T (e_msn e) /\ fits g (e_msn e)) ->
  (forall n m, In (n, m) H -> concerns k m -> T n -> mem n es \/ forall e, In e es -> (e_msn e < n)%N) ->
  (forall n m, In (n, m) H -> concerns k m -> (T' n <-> T n /\ ~ mem n es)) ->
  key_ok H k T' (fold_left (fun o e => effect g (e_msg e) o) es r).
Proof.
  intros HO. induction es as [|e es IH]; intros T T' r K S IE MIN X.
  - cbn. eapply ko_ext; [exact K|]. intros n m I C. rewrite (X n m I C). unfold mem. split; [|tauto]. intros t. split; [exact t|]. intros (? & [] & _).
  - cbn in S. inversion S as [|? ? S' F]; subst. rewrite Forall_map, Forall_forall in F. cbn [fold_left].
    destruct (IE e (or_introl eq_refl)) as (I0 & C0 & T0 & FT0).
    apply (IH (fun n => T n /\ n <> e_msn e) T').
    + eapply ko_apply; [exact HO|exact K|exact I0|exact C0|exact T0|exact FT0| |].
      * intros n' m' I' C' Tn. destruct (MIN n' m' I' C' Tn) as [(e' & [<-|Ie'] & <-)|Q]; [lia|specialize (F e' Ie'); lia|].
        specialize (Q e (or_introl eq_refl)). lia.
      * intros n' m' _ _. tauto.
    + exact S'.
    + intros e' Ie'. destruct (IE e' (or_intror Ie')) as (Q1 & Q2 & Q3 & Q4). split; [auto|]. split; [auto|]. split; [|exact Q4]. split; [auto|]. specialize (F e' Ie'). lia.
    + intros n m I C (Tn & NE). destruct (MIN n m I C Tn) as [(e' & [<-|Ie'] & Q)|Q]; [congruence|left; exists e'; auto|right; intros; apply Q; cbn; auto].
    + intros n m I C. rewrite (X n m I C). unfold mem. split.
      * intros (Q1 & Q2). split; [split; [exact Q1|]|].
        -- intros ->. apply Q2. exists e. cbn; auto.
        -- intros (e' & Ie' & Q). apply Q2. exists e'. cbn; auto.
      * intros ((Q1 & Q2) & Q3). split; [exact Q1|]. intros (e' & [<-|Ie'] & Q); [congruence|]. apply Q3. exists e'; auto.
Qed.

(** ** One ancestor's buffer *)
Definition pick (lo hi : bound) (fl : bool) (e : ent) : bool := ((negb fl && stale_in lo hi e) || fresh_in lo hi e) || bcast e.

Lemma pick_rel lo hi fl e : pick lo hi fl e = true -> rel lo hi (e_msg e).
Proof.
  unfold pick, stale_in, fresh_in, bcast, rel. rewrite !orb_true_iff, !andb_true_iff, !negb_true_iff, (in_rngb_iff (E:=E)). tauto.
Qed.
Lemma pick_conc lo hi fl e k : in_rng c lo hi k -> concerns k (e_msg e) -> pick lo hi fl e = false -> fl = true /\ once (e_msg e) = true /\ in_rng c lo hi (m_key (e_msg e)) /\ e_tag e = Stale.
Proof.
  intros R C P. apply concerns_iff in C. unfold pick, stale_in, fresh_in, bcast in P. destruct (once (e_msg e)); cbn in P; [|rewrite orb_true_r in P; discriminate].
  destruct C as [|C]; [discriminate|]. assert (R' : in_rng c lo hi (m_key (e_msg e))) by (eapply (in_rng_keq ok); eauto).
  rewrite (proj2 (in_rngb_iff lo hi _) R') in P. destruct fl, (e_tag e); cbn in P; try discriminate. auto.
Qed.

Definition mk (lo hi : bound) (e e' : ent) : Prop :=
  e_msn e' = e_msn e /\ e_msg e' = e_msg e /\
  (e_tag e' = e_tag e \/ (once (e_msg e) = true /\ in_rng c lo hi (m_key (e_msg e)) /\ e_tag e' <> Fresh)).

Lemma mk_refl lo hi buf : Forall2 (mk lo hi) buf buf.
Proof. induction buf; constructor; auto. split; auto. Qed.
Lemma mk_mark lo hi buf : Forall2 (mk lo hi) buf (map (mark lo hi) buf).
Proof.
  induction buf as [|e buf IH]; constructor; auto. unfold mark. destruct (fresh_in lo hi e) eqn:F; [|split; auto]. split; [reflexivity|]. split; [reflexivity|].
  right. unfold fresh_in in F. apply andb_prop in F. destruct F as (F & R). apply andb_prop in F. destruct F as (O & _). apply (in_rngb_iff (E:=E)) in R.
  split; [exact O|]. split; [exact R|]. cbn. discriminate.
Qed.

Lemma bnc_apply_ok H top lo hi (g : G) mx buf P b : hist_ok H top -> in_hist H (buf ++ P) -> StronglySorted N.lt (map e_msn buf) ->
  (forall e, In e buf -> (e_msn e <= mx)%N) -> (forall e, In e P -> rel lo hi (e_msg e) -> (mx < e_msn e)%N) -> (b_max b < mx)%N ->
  view H lo hi (buf ++ P) (b_max b) (b_rows b) ->
  (b_flag b = true -> forall e, In e buf -> once (e_msg e) = true -> in_rng c lo hi (m_key (e_msg e)) -> e_tag e <> Fresh -> (e_msn e <= b_max b)%N) ->
  (forall e, In e buf -> fits g (e_msn e)) ->
  view H lo hi P mx (fst (bnc_apply g lo hi buf b)) /\ Forall2 (mk lo hi) buf (snd (bnc_apply g lo hi buf b)).
Proof.
  intros HO IH SS LE GT BL (S & RI & V) FL FT.
  set (st := if b_flag b then [] else filter (stale_in lo hi) buf).
  set (fr := filter (fresh_in lo hi) buf). set (bc := filter bcast buf).
  assert (PST : st = filter (fun e => negb (b_flag b) && stale_in lo hi e) buf).
  { unfold st. destruct (b_flag b); cbn; [|reflexivity]. symmetry. clear. induction buf; cbn; auto. }
  assert (X1 : forall e : ent, negb (b_flag b) && stale_in lo hi e = true -> fresh_in lo hi e = false).
  { intros e Q. apply andb_prop in Q. destruct Q as (_ & Q). unfold stale_in, fresh_in in *. destruct (once (e_msg e)), (e_tag e); cbn in *; congruence. }
  assert (X2 : forall e : ent, (negb (b_flag b) && stale_in lo hi e) || fresh_in lo hi e = true -> bcast e = false).
  { intros e Q. unfold stale_in, fresh_in, bcast in *. destruct (once (e_msg e)); cbn in *; [reflexivity|]. rewrite andb_false_r in Q. discriminate. }
  assert (PERM : Permutation (st ++ fr ++ bc) (filter (pick lo hi (b_flag b)) buf)).
  { rewrite app_assoc, PST. unfold fr. rewrite (filter_perm2 _ _ _ X1). unfold bc. rewrite (filter_perm2 _ _ _ X2). reflexivity. }
  (* any order that is right for every key will do *)
  assert (GOOD : forall es, (forall e, In e es <-> In e (filter (pick lo hi (b_flag b)) buf)) ->
    (forall k, in_rng c lo hi k -> StronglySorted N.lt (map e_msn (sel k (b_max b) es))) -> view H lo hi P mx (apply_list g (b_max b) es (b_rows b))).
  { intros es IN SRT. split; [apply apply_list_sorted; exact S|]. split.
    - apply apply_list_rin; auto. intros e Ie. apply IN in Ie. apply filter_In in Ie. eapply pick_rel. apply Ie.
    - intros k Rk. rewrite apply_list_find by exact S. apply (ko_fold H top k g HO _ (todo (buf ++ P) (b_max b)) (todo P mx)).
      + apply V; auto.
      + apply SRT; auto.
      + intros e Ie. apply sel_In in Ie. destruct Ie as (Ie & C & LT). apply IN in Ie. apply filter_In in Ie. destruct Ie as (Ie & _).
        split; [apply IH; apply in_or_app; auto|]. split; [exact C|]. split; [|apply FT; exact Ie]. split; [exact LT|]. exists e. split; [apply in_or_app; auto|reflexivity].
      + intros n m I C (Q1 & e & Ie & <-). assert (EM : e_msg e = m) by (symmetry; eapply hist_unique; eauto). apply in_app_or in Ie. destruct Ie as [Ie|Ie].
        * left. exists e. split; [|reflexivity]. apply sel_In. rewrite EM. split; [|auto]. apply IN. apply filter_In. split; [exact Ie|].
          destruct (pick lo hi (b_flag b) e) eqn:PK; [reflexivity|exfalso]. destruct (pick_conc lo hi (b_flag b) e k Rk) as (F & O & R' & TG); [rewrite EM; exact C|exact PK|].
          specialize (FL F e Ie O R'). rewrite TG in FL. specialize (FL ltac:(discriminate)). lia.
        * right. intros e' Ie'. apply sel_In in Ie'. destruct Ie' as (Ie' & _). apply IN in Ie'. apply filter_In in Ie'. destruct Ie' as (Ie' & _).
          specialize (LE e' Ie'). specialize (GT e Ie). rewrite EM in GT. specialize (GT (concerns_rel ok _ _ _ _ Rk C)). lia.
      + intros n m I C. split.
        * intros (Q1 & e & Ie & <-). split; [split; [lia|exists e; split; [apply in_or_app; auto|reflexivity]]|].
          intros (e' & Ie' & Q). apply sel_In in Ie'. destruct Ie' as (Ie' & _). apply IN in Ie'. apply filter_In in Ie'. destruct Ie' as (Ie' & _). specialize (LE e' Ie'). lia.
        * intros ((Q1 & e & Ie & <-) & NM). assert (EM : e_msg e = m) by (symmetry; eapply hist_unique; eauto). apply in_app_or in Ie. destruct Ie as [Ie|Ie].
          -- exfalso. apply NM. exists e. split; [|reflexivity]. apply sel_In. rewrite EM. split; [|auto]. apply IN. apply filter_In. split; [exact Ie|].
             destruct (pick lo hi (b_flag b) e) eqn:PK; [reflexivity|exfalso]. destruct (pick_conc lo hi (b_flag b) e k Rk) as (F & O & R' & TG); [rewrite EM; exact C|exact PK|].
             specialize (FL F e Ie O R'). rewrite TG in FL. specialize (FL ltac:(discriminate)). lia.
          -- split; [|exists e; auto]. apply GT; auto. rewrite EM. eapply concerns_rel; eauto. }
  assert (INP : forall e, In e (st ++ fr ++ bc) <-> In e (filter (pick lo hi (b_flag b)) buf)).
  { intros e. split; apply Permutation_in; [exact PERM|symmetry; exact PERM]. }
  unfold bnc_apply. fold st fr bc.
  destruct (negb (is_nil bc) || negb (is_nil st) && negb (is_nil fr)) eqn:BR.
  - cbn [fst snd]. split; [|apply mk_mark]. apply GOOD.
    + intros e. rewrite <- INP. split; apply Permutation_in; [apply sort_msn_perm|symmetry; apply sort_msn_perm].
    + intros k Rk. apply SS_filter. apply SS_strict; [apply sort_msn_sorted|].
      eapply Permutation_NoDup; [apply Permutation_map; symmetry; rewrite sort_msn_perm; exact PERM|]. apply SS_NoDup. apply SS_filter. exact SS.
  - apply orb_false_iff in BR. destruct BR as (BR1 & BR2). apply negb_false_iff in BR1. assert (BC : bc = []) by (destruct bc; [reflexivity|discriminate]).
    assert (OF : forall e, In e fr -> once (e_msg e) = true). { intros e Ie. apply filter_In in Ie. destruct Ie as (_ & Q). unfold fresh_in in Q. destruct (once (e_msg e)); [reflexivity|discriminate]. }
    assert (OS : forall e, In e st -> once (e_msg e) = true).
    { intros e Ie. rewrite PST in Ie. apply filter_In in Ie. destruct Ie as (_ & Q). apply andb_prop in Q. destruct Q as (_ & Q). unfold stale_in in Q. destruct (once (e_msg e)); [reflexivity|discriminate]. }
    rewrite BC in INP. destruct (is_nil st) eqn:ST.
    + assert (ST' : st = []) by (destruct st; [reflexivity|discriminate]). rewrite ST' in INP. cbn [fst snd app] in *. split; [|apply mk_mark]. apply GOOD.
      * intros e. rewrite sort_key_In, <- INP, app_nil_r. tauto.
      * intros k Rk. rewrite sel_sort_key by exact OF. apply SS_filter. apply SS_filter. exact SS.
    + cbn in BR2. apply negb_false_iff in BR2. assert (FR' : fr = []) by (destruct fr; [reflexivity|discriminate]). rewrite FR' in INP. cbn [fst snd app] in *.
      split; [|apply mk_refl]. apply GOOD.
      * intros e. rewrite sort_key_In, <- INP, app_nil_r. tauto.
      * intros k Rk. rewrite sel_sort_key by exact OS. apply SS_filter. rewrite PST. apply SS_filter. exact SS.
Qed.

(** ** The ancestors *)
Definition pend_of (an : ancs) : list ent := concat (map snd an).
Fixpoint anc_ok (H : hist) (top : N) (lo hi : bound) (an : ancs) : Prop :=
  match an with
  | [] => True
  | (mx, buf) :: an => StronglySorted N.lt (map e_msn buf) /\ in_hist H buf /\ (forall e, In e buf -> (e_msn e <= mx)%N) /\ (mx <= top)%N /\
    (forall e, In e (pend_of an) -> rel lo hi (e_msg e) -> (mx < e_msn e)%N) /\ anc_ok H top lo hi an
  end.
Definition marks (lo hi : bound) (an an' : ancs) : Prop := Forall2 (fun x y => fst y = fst x /\ Forall2 (mk lo hi) (snd x) (snd y)) an an'.

Lemma pend_cons mx buf an : pend_of ((mx, buf) :: an) = buf ++ pend_of an.
Proof. reflexivity. Qed.
Lemma mk_sub lo hi lo' hi' e e' : sub c lo hi lo' hi' -> mk lo hi e e' -> mk lo' hi' e e'.
Proof. intros S (Q1 & Q2 & Q3). split; [auto|]. split; [auto|]. destruct Q3 as [|(A & B & C)]; auto. Qed.
Lemma mk_trans lo hi a b d : Forall2 (mk lo hi) a b -> forall (F : Forall2 (mk lo hi) b d), Forall2 (mk lo hi) a d.
Proof.
  intros F. revert d. induction F as [|x y a b M F IH]; intros d F2; inversion F2 as [|? z ? d' M' F']; subst; constructor; auto.
  destruct M as (Q1 & Q2 & Q3), M' as (Q1' & Q2' & Q3'). split; [congruence|]. split; [congruence|]. rewrite Q2 in Q3'. destruct Q3' as [Q3'|Q3']; [|auto].
  destruct Q3 as [Q3|(A & B & C)]; [left; congruence|right]. rewrite Q3'. auto.
Qed.
Lemma marks_refl lo hi an : marks lo hi an an.
Proof. induction an; constructor; auto. split; auto. apply mk_refl. Qed.
Lemma marks_sub lo hi lo' hi' an an' : sub c lo hi lo' hi' -> marks lo hi an an' -> marks lo' hi' an an'.
Proof.
  intros S. induction 1 as [|x y an an' (Q & F) M IH]; constructor; auto. split; auto. clear - S F. induction F; constructor; auto. eapply mk_sub; eauto.
Qed.
Lemma marks_trans lo hi a b d : marks lo hi a b -> marks lo hi b d -> marks lo hi a d.
Proof.
  intros F. revert d. induction F as [|x y a b (Q & F0) F IH]; intros d F2; inversion F2 as [|? z ? d' (Q' & F0') F']; subst; constructor; auto.
  - split; [congruence|]. eapply mk_trans; eauto.
  - apply IH; auto.
Qed.
Lemma mks_of lo hi an an' : marks lo hi an an' -> Forall2 (mk lo hi) (pend_of an) (pend_of an').
Proof. induction 1 as [|[mx buf] [mx' buf'] an an' (Q & F) M IH]; [constructor|]. unfold pend_of in *. cbn. apply Forall2_app; auto. Qed.
Lemma mks_msn lo hi p p' : Forall2 (mk lo hi) p p' -> map e_msn p' = map e_msn p.
Proof. induction 1 as [|x y p p' (Q & _) F IH]; cbn; congruence. Qed.
Lemma mks_In lo hi p p' : Forall2 (mk lo hi) p p' -> forall e', In e' p' -> exists e, In e p /\ mk lo hi e e'.
Proof. induction 1 as [|x y p p' M F IH]; intros e' []; [subst; exists x; cbn; auto|]. destruct (IH e' H) as (e & Ie & K). exists e. cbn; auto. Qed.
Lemma mks_In2 lo hi p p' : Forall2 (mk lo hi) p p' -> forall e, In e p -> exists e', In e' p' /\ mk lo hi e e'.
Proof. induction 1 as [|x y p p' M F IH]; intros e []; [subst; exists y; cbn; auto|]. destruct (IH e H) as (e' & Ie & K). exists e'. cbn; auto. Qed.
Lemma mks_hist H lo hi p p' : Forall2 (mk lo hi) p p' -> in_hist H p -> in_hist H p'.
Proof. intros F I e' Ie'. destruct (mks_In _ _ _ _ F e' Ie') as (e & Ie & Q1 & Q2 & _). rewrite Q1, Q2. auto. Qed.
Lemma mks_fits lo hi p p' (g : G) : Forall2 (mk lo hi) p p' -> (forall e, In e p -> fits g (e_msn e)) -> forall e, In e p' -> fits g (e_msn e).
Proof. intros F FT e' Ie'. destruct (mks_In _ _ _ _ F e' Ie') as (e & Ie & -> & _). auto. Qed.
Lemma mks_peq lo hi lo' hi' p p' : disj c lo hi lo' hi' -> Forall2 (mk lo hi) p p' -> peq lo' hi' p p'.
Proof.
  intros D F. split.
  - intros e Ie R. destruct (mks_In2 _ _ _ _ F e Ie) as (e' & Ie' & Q1 & Q2 & Q3). exists e'. split; [auto|]. split; [auto|]. split; [auto|].
    intros O. destruct Q3 as [->|(_ & Rk & _)]; [tauto|]. destruct R as [R|R]; [congruence|]. exfalso. eapply D; eauto.
  - intros e' Ie' R. destruct (mks_In _ _ _ _ F e' Ie') as (e & Ie & Q1 & Q2 & Q3). exists e. split; [auto|]. split; [auto|]. split; [auto|].
    intros O. destruct Q3 as [->|(_ & Rk & _)]; [tauto|]. rewrite Q2 in *. destruct R as [R|R]; [congruence|]. exfalso. eapply D; eauto.
Qed.

Lemma anc_hist H top lo hi an : anc_ok H top lo hi an -> in_hist H (pend_of an).
Proof. induction an as [|[mx buf] an IH]; cbn; [intros _ e []|]. intros (_ & I & _ & _ & _ & K) e Ie. apply in_app_or in Ie. destruct Ie; [apply I|apply IH]; auto. Qed.
Lemma anc_sub H top lo hi lo' hi' an : sub c lo' hi' lo hi -> anc_ok H top lo hi an -> anc_ok H top lo' hi' an.
Proof.
  intros S. induction an as [|[mx buf] an IH]; cbn; auto. intros (A1 & A2 & A3 & A4 & A5 & A6). split; [auto|]. split; [auto|]. split; [auto|]. split; [auto|]. split; auto.
  intros e Ie R. apply A5; auto. eapply rel_sub; eauto.
Qed.
Lemma anc_marks H top lo hi lo' hi' an an' : marks lo' hi' an an' -> anc_ok H top lo hi an -> anc_ok H top lo hi an'.
Proof.
  induction 1 as [|[mx buf] [mx' buf'] an an' (Q & F) M IH]; auto. cbn [anc_ok fst snd] in *. subst mx'. intros (A1 & A2 & A3 & A4 & A5 & A6).
  split; [rewrite (mks_msn _ _ _ _ F); auto|]. split; [eapply mks_hist; eauto|]. split.
  { intros e' Ie'. destruct (mks_In _ _ _ _ F e' Ie') as (e & Ie & -> & _). auto. }
  split; [auto|]. split; [|auto]. intros e' Ie' R. destruct (mks_In _ _ _ _ (mks_of _ _ _ _ M) e' Ie') as (e & Ie & Q1 & Q2 & _). rewrite Q1. apply A5; auto. rewrite <- Q2. auto.
Qed.

Definition flag_ok (lo hi : bound) (P : list ent) (b : bn E) : Prop :=
  b_flag b = true -> forall e, In e P -> once (e_msg e) = true -> in_rng c lo hi (m_key (e_msg e)) -> e_tag e <> Fresh -> (e_msn e <= b_max b)%N.

Lemma anc_apply_ok H top lo hi (g : G) : hist_ok H top -> forall an b, anc_ok H top lo hi an -> (b_max b <= top)%N ->
  view H lo hi (pend_of an) (b_max b) (b_rows b) -> flag_ok lo hi (pend_of an) b -> (forall e, In e (pend_of an) -> fits g (e_msn e)) ->
  let b' := fst (anc_apply g lo hi an b) in let an' := snd (anc_apply g lo hi an b) in
  marks lo hi an an' /\ view H lo hi [] (b_max b') (b_rows b') /\ (b_max b <= b_max b')%N /\ (b_max b' <= top)%N /\
  (forall e, In e (pend_of an) -> (e_msn e <= b_max b')%N).
Proof.
  intros HO. induction an as [|[mx buf] an IH]; cbn [anc_ok]; intros b K T V F FT.
  - cbn. split; [constructor|]. split; [exact V|]. split; [lia|]. split; [exact T|]. intros e [].
  - destruct K as (A1 & A2 & A3 & A4 & A5 & A6). rewrite pend_cons in V, F. cbn [anc_apply].
    assert (IH' : in_hist H (buf ++ pend_of an)). { intros e Ie. apply in_app_or in Ie. destruct Ie; [auto|]. eapply anc_hist; eauto. }
    destruct (N.ltb_spec (b_max b) mx) as [LT|GE].
    + destruct (bnc_apply_ok H top lo hi g mx buf (pend_of an) b HO IH' A1 A3 A5 LT V) as (V' & M').
      { intros Fl e Ie. apply F; auto. apply in_or_app; auto. }
      { intros e Ie. apply FT. rewrite pend_cons. apply in_or_app; auto. }
      destruct (bnc_apply g lo hi buf b) as [r buf'] eqn:BA. cbn [fst snd] in V', M'.
      specialize (IH (Bn r mx (b_flag b)) A6 A4 V'). cbn [b_max b_rows b_flag] in IH.
      destruct IH as (R1 & R2 & R3 & R4 & R5).
      { intros Fl e Ie O R TG. cbn [b_max]. specialize (F Fl e (in_or_app _ _ _ (or_intror Ie)) O R TG). lia. }
      { intros e Ie. apply FT. rewrite pend_cons. apply in_or_app; auto. }
      destruct (anc_apply g lo hi an (Bn r mx (b_flag b))) as [b' an'] eqn:AA. cbn [fst snd] in *. split; [constructor; auto|]. split; [exact R2|]. split; [lia|]. split; [exact R4|].
      intros e Ie. rewrite pend_cons in Ie. apply in_app_or in Ie. destruct Ie as [Ie|Ie]; [specialize (A3 e Ie); lia|auto].
    + destruct (IH b A6 T) as (R1 & R2 & R3 & R4 & R5).
      { eapply view_ext; [exact ok|exact V|]. intros n m I R. unfold todo, mem. split.
        - intros (LT & e & Ie & <-). split; [exact LT|]. apply in_app_or in Ie. destruct Ie as [Ie|Ie]; [specialize (A3 e Ie); lia|]. exists e; auto.
        - intros (LT & e & Ie & <-). split; [exact LT|]. exists e. split; [apply in_or_app; auto|reflexivity]. }
      { intros Fl e Ie. apply F; auto. apply in_or_app; auto. }
      { intros e Ie. apply FT. rewrite pend_cons. apply in_or_app; auto. }
      destruct (anc_apply g lo hi an b) as [b' an'] eqn:AA. cbn [fst snd] in *. split; [constructor; auto; split; auto; apply mk_refl|]. split; [exact R2|]. split; [lia|]. split; [exact R4|].
      intros e Ie. rewrite pend_cons in Ie. apply in_app_or in Ie. destruct Ie as [Ie|Ie]; [specialize (A3 e Ie); lia|auto].
Qed.

Lemma view_seen (H : hist) lo hi (P P' : list ent) mx (r : rows) : in_hist H P' -> view H lo hi P mx r -> (forall e, In e P -> rel lo hi (e_msg e) -> (e_msn e <= mx)%N) -> forall mx', (mx <= mx')%N ->
  (forall e, In e P' -> rel lo hi (e_msg e) -> (e_msn e <= mx')%N) -> in_hist H P -> forall top, hist_ok H top -> view H lo hi P' mx' r.
Proof.
  intros I' V A mx' LE B I top HO. eapply view_ext; [exact ok|exact V|]. intros n m In_ R. unfold todo, mem. split; intros (LT & e & Ie & <-); exfalso.
  - assert (e_msg e = m) as <- by (eapply hist_unique; eauto). specialize (A e Ie R). lia.
  - assert (e_msg e = m) as <- by (eapply hist_unique; eauto). specialize (B e Ie R). lia.
Qed.

Lemma bn_needs_ok H top lo hi (b : bn E) : forall an acc n, anc_ok H top lo hi an -> flag_ok lo hi (pend_of an) b -> (acc <= top)%N -> bn_needs lo hi an b acc = Some n ->
  (n <= top)%N /\ forall e, In e (pend_of an) -> rel lo hi (e_msg e) -> (e_msn e <= b_max b)%N.
Proof.
  induction an as [|[mx buf] an IH]; cbn [anc_ok bn_needs]; intros acc n K F T Q.
  - injection Q as <-. split; [exact T|]. intros e [].
  - destruct K as (A1 & A2 & A3 & A4 & A5 & A6). rewrite pend_cons in F.
    assert (F' : flag_ok lo hi (pend_of an) b). { intros Fl e Ie. apply F; auto. apply in_or_app; auto. }
    assert (IHs : forall e, In e (buf ++ pend_of an) -> rel lo hi (e_msg e) -> (In e buf -> (e_msn e <= b_max b)%N) ->
       (forall e, In e (pend_of an) -> rel lo hi (e_msg e) -> (e_msn e <= b_max b)%N) -> (e_msn e <= b_max b)%N).
    { intros e Ie R X1 X2. apply in_app_or in Ie. destruct Ie; auto. }
    destruct (N.ltb_spec (b_max b) mx) as [LT|GE].
    + destruct (existsb bcast buf) eqn:E1; [discriminate|]. destruct (negb (b_flag b) && existsb (stale_in lo hi) buf) eqn:E2; [discriminate|].
      destruct (existsb (fresh_in lo hi) buf) eqn:E3; [discriminate|].
      assert (X1 : forall e, In e buf -> rel lo hi (e_msg e) -> (e_msn e <= b_max b)%N).
      { intros e Ie R. assert (N1 : bcast e = false) by (destruct (bcast e) eqn:Z; auto; rewrite <- E1; symmetry; apply existsb_exists; eauto).
        assert (N3 : fresh_in lo hi e = false) by (destruct (fresh_in lo hi e) eqn:Z; auto; rewrite <- E3; symmetry; apply existsb_exists; eauto).
        unfold bcast in N1. apply negb_false_iff in N1. destruct R as [R|R]; [congruence|]. unfold fresh_in in N3. rewrite N1, (proj2 (in_rngb_iff lo hi _) R) in N3.
        assert (TG : e_tag e = Stale) by (destruct (e_tag e); cbn in N3; congruence).
        destruct (b_flag b) eqn:Fl.
        - apply F; auto; [apply in_or_app; auto|congruence].
        - cbn in E2. exfalso. assert (existsb (stale_in lo hi) buf = true); [|congruence]. apply existsb_exists. exists e. split; [exact Ie|].
          unfold stale_in. rewrite N1, TG, (proj2 (in_rngb_iff lo hi _) R). reflexivity. }
      assert (T' : ((if (acc <? mx)%N then mx else acc) <= top)%N) by (destruct (acc <? mx)%N; auto).
      destruct (IH _ n A6 F' T' Q) as (R1 & R2). split; [exact R1|]. intros e Ie R. apply IHs; auto.
    + destruct (IH _ n A6 F' T Q) as (R1 & R2). split; [exact R1|]. intros e Ie R. rewrite pend_cons in Ie. apply IHs; auto. intros Ie'. specialize (A3 e Ie'). lia.
Qed.

(** What all messages have made of the row of [k]. *)
Definition made (H : hist) (k : bytes) (r : option L) : Prop := exists gs, course k H r gs.
Lemma made_outcome H k r : made H k r -> outcome k (map snd H) r.
Proof. intros (gs & C). eapply course_outcome; eauto. Qed.

Lemma bn_done H top lo hi (P : list ent) (b : bn E) k : hist_ok H top -> in_hist H P -> view H lo hi P (b_max b) (b_rows b) ->
  (forall e, In e P -> rel lo hi (e_msg e) -> (e_msn e <= b_max b)%N) -> in_rng c lo hi k -> made H k (rows_find k (b_rows b)).
Proof.
  intros HO IP (_ & _ & V) X R. eapply ko_course; [apply V; exact R|]. intros n m I C (LT & e & Ie & <-).
  assert (e_msg e = m) as <- by (eapply hist_unique; eauto). specialize (X e Ie (concerns_rel ok _ _ _ _ R C)). lia.
Qed.

(** One basement node: messages applied, or none needed. *)
Lemma slot_apply_ok H top lo hi (g : G) an s nm d b : hist_ok H top -> anc_ok H top lo hi an -> slot_ok H top (pend_of an) nm d lo hi s -> s_mem s = Some b -> (forall e, In e (pend_of an) -> fits g (e_msn e)) ->
  let b' := fst (anc_apply g lo hi an b) in let an' := snd (anc_apply g lo hi an b) in
  marks lo hi an an' /\ bn_ok H top lo hi (pend_of an') b' /\ (b_max b <= b_max b')%N /\ (forall e, In e (pend_of an') -> (e_msn e <= b_max b')%N).
Proof.
  intros HO AO (K1 & K2) M FT. rewrite M in K1. destruct K1 as ((V & T & F) & NM).
  destruct (anc_apply_ok H top lo hi g HO an b AO T V F FT) as (R1 & R2 & R3 & R4 & R5). cbv zeta.
  set (b' := fst (anc_apply g lo hi an b)) in *. set (an' := snd (anc_apply g lo hi an b)) in *.
  assert (X : forall e, In e (pend_of an') -> (e_msn e <= b_max b')%N).
  { intros e' Ie'. destruct (mks_In _ _ _ _ (mks_of _ _ _ _ R1) e' Ie') as (e & Ie & -> & _). auto. }
  split; [exact R1|]. split; [|split; auto]. split; [|split; auto].
  eapply (view_seen H lo hi [] (pend_of an') (b_max b')); eauto; try lia.
  - eapply mks_hist; [apply (mks_of _ _ _ _ R1)|]. eapply anc_hist; eauto.
  - intros e [].
  - intros e [].
Qed.

Definition full (P : list ent) (s : slot) : Prop := exists b, s_mem s = Some b /\ forall e, In e P -> (e_msn e <= b_max b)%N.

Lemma slot_marks H top lo hi lo' hi' an an' nm d s : hist_ok H top -> anc_ok H top lo hi an -> marks lo hi an an' -> disj c lo hi lo' hi' ->
  slot_ok H top (pend_of an) nm d lo' hi' s -> slot_ok H top (pend_of an') nm d lo' hi' s.
Proof.
  intros HO A M D K. pose proof (mks_of _ _ _ _ M) as MO. eapply slot_pend; [exact ok|exact HO| | | |exact K].
  - eapply anc_hist; eauto.
  - eapply mks_hist; [exact MO|]. eapply anc_hist; eauto.
  - eapply mks_peq; eauto.
Qed.
Lemma full_marks lo hi an an' s : marks lo hi an an' -> full (pend_of an) s -> full (pend_of an') s.
Proof. intros M (b & Q & X). exists b. split; [exact Q|]. intros e' Ie'. destruct (mks_In _ _ _ _ (mks_of _ _ _ _ M) e' Ie') as (e & Ie & -> & _). auto. Qed.

Lemma apply_every_ok H top nm (g : G) : hist_ok H top -> forall (s : seg slot) lo hi an, anc_ok H top lo hi an ->
  seg_all c (slot_ok H top (pend_of an) nm true) lo hi s -> (forall e, In e (pend_of an) -> fits g (e_msn e)) ->
  let s' := fst (apply_every g lo hi an s) in let an' := snd (apply_every g lo hi an s) in
  marks lo hi an an' /\ seg_pivots s' = seg_pivots s /\
  seg_all c (fun lo hi x => slot_ok H top (pend_of an') nm true lo hi x /\ full (pend_of an') x) lo hi s'.
Proof.
  intros HO.
  assert (ONE : forall lo hi an x, anc_ok H top lo hi an -> slot_ok H top (pend_of an) nm true lo hi x -> (forall e, In e (pend_of an) -> fits g (e_msn e)) ->
    let x' := fst (slot_apply g lo hi an x) in let an' := snd (slot_apply g lo hi an x) in
    marks lo hi an an' /\ slot_ok H top (pend_of an') nm true lo hi x' /\ full (pend_of an') x').
  { intros lo hi an x AO K FT. unfold slot_apply. destruct (s_mem x) as [b|] eqn:M; [|exfalso; destruct K as (K & _); rewrite M in K; discriminate].
    destruct (slot_apply_ok H top lo hi g an x nm true b HO AO K M FT) as (R1 & R2 & R3 & R4).
    destruct (anc_apply g lo hi an b) as [b' an']. cbn [fst snd] in *. split; [exact R1|]. split; [split; cbn; [split; [exact R2|discriminate]|discriminate]|]. exists b'. auto. }
  induction s as [a|a p s IH]; intros lo hi an AO SA FT; cbn [apply_every seg_all] in *.
  - destruct SA as (B & SA). specialize (ONE lo hi an a AO SA FT). destruct (slot_apply g lo hi an a) as [a' an']. cbn [fst snd seg_pivots seg_all] in *. destruct ONE as (R1 & R2 & R3).
    split; [auto|]. split; [auto|]. auto.
  - destruct SA as (B & SA & SA'). pose proof (seg_all_blt ok _ _ _ _ SA') as B'.
    pose proof (sub_left ok lo p hi B') as SL. pose proof (sub_right ok lo p hi B) as SR.
    specialize (ONE lo (Some p) an a (anc_sub _ _ _ _ _ _ _ SL AO) SA FT). destruct (slot_apply g lo (Some p) an a) as [a' an1]. cbn [fst snd] in ONE. destruct ONE as (R1 & R2 & R3).
    assert (AO1 : anc_ok H top (Some p) hi an1). { eapply anc_marks; [exact R1|]. eapply anc_sub; eauto. }
    specialize (IH (Some p) hi an1 AO1). destruct (apply_every g (Some p) hi an1 s) as [s' an2]. cbn [fst snd] in *.
    destruct IH as (Q1 & Q2 & Q3).
    { eapply seg_all_impl; [exact ok|exact SA'|]. intros lo' hi' x Sx Kx. eapply (slot_marks H top lo (Some p)); eauto; [eapply anc_sub; eauto|].
      eapply disj_sub; [apply (disj_left ok)|apply sub_refl|exact Sx]. }
    { eapply mks_fits; [apply mks_of; exact R1|exact FT]. }
    split. { eapply marks_trans; [eapply marks_sub; [exact SL|exact R1]|eapply marks_sub; [exact SR|exact Q1]]. }
    split; [cbn; congruence|]. cbn [seg_all]. split; [exact B|]. split; [|exact Q3]. split.
    + eapply (slot_marks H top (Some p) hi); eauto. apply disj_sym. apply (disj_left ok).
    + eapply full_marks; eauto.
Qed.

Lemma needs_every_ok H top nm d : forall (s : seg slot) lo hi an, anc_ok H top lo hi an ->
  seg_all c (slot_ok H top (pend_of an) nm d) lo hi s -> needs_every lo hi an s = false ->
  seg_all c (fun lo hi x => slot_ok H top (pend_of an) nm d lo hi x /\ forall b, s_mem x = Some b -> forall e, In e (pend_of an) -> rel lo hi (e_msg e) -> (e_msn e <= b_max b)%N) lo hi s.
Proof.
  assert (ONE : forall lo hi an x, anc_ok H top lo hi an -> slot_ok H top (pend_of an) nm d lo hi x -> slot_needs lo hi an x = false ->
    forall b, s_mem x = Some b -> forall e, In e (pend_of an) -> rel lo hi (e_msg e) -> (e_msn e <= b_max b)%N).
  { intros lo hi an x AO (K & _) Q b M. unfold slot_needs in Q. rewrite M in *. destruct (bn_needs lo hi an b 0) as [n|] eqn:BN; [|discriminate].
    destruct K as ((V & T & F) & _). eapply bn_needs_ok; [exact AO|exact F|apply N.le_0_l|exact BN]. }
  induction s as [a|a p s IH]; intros lo hi an AO SA Q; cbn [needs_every seg_all] in *.
  - destruct SA as (B & SA). split; [exact B|]. split; [exact SA|]. eapply ONE; eauto.
  - destruct SA as (B & SA & SA'). pose proof (seg_all_blt ok _ _ _ _ SA') as B'. apply orb_false_iff in Q. destruct Q as (Q1 & Q2).
    pose proof (sub_left ok lo p hi B') as SL. pose proof (sub_right ok lo p hi B) as SR.
    split; [exact B|]. split; [split; [exact SA|]; eapply ONE; eauto; eapply anc_sub; eauto|]. apply IH; auto. eapply anc_sub; eauto.
Qed.

(** ** The leaf *)
Lemma seg_upd_pivots {C R} (f : bound -> bound -> C -> res (seg C * R)) : (forall lo hi a sa r, f lo hi a = Ok (sa, r) -> exists a', sa = One a') ->
  forall s lo hi i s' r, seg_upd lo hi i f s = Ok (s', r) -> seg_pivots s' = seg_pivots s.
Proof.
  intros F. induction s as [a|a p s IH]; intros lo hi i s' r U; destruct i; cbn in U; try discriminate.
  - destruct (F _ _ _ _ _ U) as (a' & ->). reflexivity.
  - destruct (f lo (Some p) a) as [[sa r']| |] eqn:Q; try discriminate. injection U as <- <-. destruct (F _ _ _ _ _ Q) as (a' & ->). reflexivity.
  - destruct (seg_upd (Some p) hi i f s) as [[s1 r']| |] eqn:Q; try discriminate. injection U as <- <-. cbn. erewrite IH; eauto.
Qed.

(** What a look at basement node [i] sees: every row is what all messages have made of it. *)
Definition bn_seen (H : hist) (lo hi : bound) (r : rows) : Prop :=
  rsorted r /\ rin lo hi r /\ forall k, in_rng c lo hi k -> made H k (rows_find k r).

Lemma leaf_pin_ok {R} H top lo hi (g : G) i (look : bound -> bound -> rows -> R) an (l : leaf) : hist_ok H top -> anc_ok H top lo hi an -> leaf_ok H top lo hi (pend_of an) (pend_of an) l -> (forall e, In e (pend_of an) -> fits g (e_msn e)) ->
  i <= length (seg_pivots (l_parts l)) ->
  let lo1 := rng_lo (seg_pivots (l_parts l)) lo i in let hi1 := rng_hi (seg_pivots (l_parts l)) hi i in
  exists l' an' rs, leaf_pin g i look lo hi an l = Ok (l', an', look lo1 hi1 rs) /\ marks lo hi an an' /\ leaf_ok H top lo hi (pend_of an') (pend_of an') l' /\
    blt c lo1 hi1 /\ sub c lo1 hi1 lo hi /\ bn_seen H lo1 hi1 rs.
Proof.
  intros HO AO (IP & LT & SA & EC) FT LE. cbv zeta. unfold leaf_pin.
  destruct (seg_at ok _ _ _ _ i SA LE) as (a & Na & Ka & B1 & S1 & AC). cbv zeta in *.
  set (lo1 := rng_lo (seg_pivots (l_parts l)) lo i) in *. set (hi1 := rng_hi (seg_pivots (l_parts l)) hi i) in *.
  specialize (AC unit (fun _ _ s => Ok (One (slot_fetch (l_max l) s), tt))). cbn beta iota in AC. destruct AC as (ps & U & IN & K). rewrite U.
  assert (ONE1 : forall (lo hi : bound) (x : slot) sa (r : unit), Ok (One (slot_fetch (l_max l) x), tt) = Ok (sa, r) -> exists a', sa = One a') by (intros ? ? x sa r Q; injection Q as <- _; eauto).
  pose proof (seg_upd_pivots _ ONE1 _ _ _ _ _ _ U) as PV.
  destruct (seg_upd_nth _ ONE1 _ _ _ _ _ _ U) as (a0 & a1 & lox & hix & Na0 & Q & Na1). rewrite Na in Na0. injection Na0 as <-. injection Q as <-.
  assert (SA2 : seg_all c (slot_ok H top (pend_of an) (l_max l) (l_dirty l)) lo hi ps).
  { apply K; [auto|]. cbn. split; [exact B1|apply slot_fetch_ok; auto]. }
  assert (MEM : s_mem (slot_fetch (l_max l) a) <> None) by (unfold slot_fetch; destruct (s_mem a) eqn:M; cbn; congruence).
  assert (INC : l_dirty l = true -> forall x, In x (seg_list ps) -> In x (seg_list (l_parts l))).
  { intros D x Ix. destruct (IN x Ix) as [|[<-|[]]]; auto. destruct Ka as (Ka & _). unfold slot_fetch. destruct (s_mem a); [|congruence]. eapply nth_error_In; eauto. }
  rewrite <- PV in LE. assert (EL : lo1 = rng_lo (seg_pivots ps) lo i) by (rewrite PV; reflexivity). assert (EH : hi1 = rng_hi (seg_pivots ps) hi i) by (rewrite PV; reflexivity).
  clear U IN K Ka Na. set (a1 := slot_fetch (l_max l) a) in *. clearbody a1. clear a ONE1. rewrite EL, EH in *. clear EL EH lo1 hi1.
  destruct (l_dirty l) eqn:D.
  - specialize (EC eq_refl).
    set (X := if needs_every lo hi an ps then apply_every g lo hi an ps else (ps, an)).
    assert (XO : marks lo hi an (snd X) /\ seg_pivots (fst X) = seg_pivots ps /\ in_hist H (pend_of (snd X)) /\
      seg_all c (fun lo hi x => slot_ok H top (pend_of (snd X)) (l_max l) true lo hi x /\ forall b, s_mem x = Some b -> forall e, In e (pend_of (snd X)) -> rel lo hi (e_msg e) -> (e_msn e <= b_max b)%N) lo hi (fst X) /\
      ec lo hi (pend_of (snd X)) (seg_list (fst X))).
    { unfold X. destruct (needs_every lo hi an ps) eqn:NE.
      - destruct (apply_every_ok H top (l_max l) g HO ps lo hi an AO SA2 FT) as (Q1 & Q2 & Q3). cbv zeta in *. split; [exact Q1|]. split; [exact Q2|].
        split; [eapply mks_hist; [apply (mks_of _ _ _ _ Q1)|]; auto|]. split.
        + eapply seg_all_impl; [exact ok|exact Q3|]. intros lo' hi' x _ (R1 & b & M & R2). split; [exact R1|]. intros b' M'. rewrite M in M'. injection M' as <-. auto.
        + intros e Ie Re. left. intros x b Ix M. destruct (seg_all_In ok _ _ _ _ x Q3 Ix) as (lo' & hi' & _ & _ & b' & M' & R2). rewrite M in M'. injection M' as <-. auto.
      - cbn [fst snd]. split; [apply marks_refl|]. split; [reflexivity|]. split; [exact IP|]. split; [eapply needs_every_ok; eauto|].
        (* nothing was fetched: a dirty leaf is in memory *)
        intros e Ie Re. destruct (EC e Ie Re) as [Z|Z]; [left|right]; intros x b Ix M; eapply Z; eauto. }
    destruct X as [ps' an']. cbn [fst snd] in XO. destruct XO as (Q1 & Q2 & Q3 & Q4 & Q5).
    rewrite <- Q2 in *. destruct (seg_at ok _ _ _ _ i Q4 LE) as (b0 & _ & (Kb0 & Kb') & B2 & S2 & AC). cbv zeta in *.
    set (lo1 := rng_lo (seg_pivots ps') lo i) in *. set (hi1 := rng_hi (seg_pivots ps') hi i) in *.
    specialize (AC R (fun lo hi s => match s_mem s with None => Fail | Some b => Ok (One s, look lo hi (b_rows b)) end)). cbn beta in AC.
    pose proof Kb0 as (Kb & _). destruct (s_mem b0) as [b|] eqn:M; [|discriminate]. destruct AC as (s' & U' & _). rewrite U'.
    exists (Leaf (l_max l) true ps'), an', (b_rows b). split; [reflexivity|]. split; [exact Q1|]. split; [|split; [exact B2|split; [exact S2|]]].
    + split; [exact Q3|]. split; [exact LT|]. cbn. split; [|auto]. eapply seg_all_impl; [exact ok|exact Q4|]. intros ? ? ? _ (Z & _); exact Z.
    + destruct Kb as ((V & _ & _) & _). split; [apply V|]. split; [apply V|]. intros k Rk. eapply bn_done; eauto.
  - destruct (seg_at ok _ _ _ _ i SA2 LE) as (a & Na & Ka & B2 & S2 & AC). cbv zeta in *.
    rewrite Na1 in Na. injection Na as <-. clear B2 S2.
    set (lo1 := rng_lo (seg_pivots ps) lo i) in *. set (hi1 := rng_hi (seg_pivots ps) hi i) in *.
    specialize (AC (ancs * R)%type (fun lo hi s =>
        match s_mem s with
        | None => Fail
        | Some b =>
          let (b', an') := match bn_needs lo hi an b 0%N with None => anc_apply g lo hi an b | Some n => (raise_max n b, an) end in
          Ok (One (Slot (Some b') (s_disk s)), (an', look lo hi (b_rows b')))
        end)). cbn beta in AC.
    pose proof Ka as (Kb & Kd). destruct (s_mem a1) as [b|] eqn:M; [|exfalso; apply MEM; auto].
    pose proof (anc_sub _ _ _ _ _ _ _ S1 AO) as AO1.
    set (Y := match bn_needs lo1 hi1 an b 0%N with None => anc_apply g lo1 hi1 an b | Some n => (raise_max n b, an) end) in *.
    assert (YO : marks lo1 hi1 an (snd Y) /\ bn_ok H top lo1 hi1 (pend_of (snd Y)) (fst Y) /\ (b_max b <= b_max (fst Y))%N /\
       forall e, In e (pend_of (snd Y)) -> rel lo1 hi1 (e_msg e) -> (e_msn e <= b_max (fst Y))%N).
    { unfold Y. destruct (bn_needs lo1 hi1 an b 0) as [n|] eqn:BN.
      - destruct Kb as ((V & T & F) & _). destruct (bn_needs_ok H top lo1 hi1 b an 0%N n AO1 F (N.le_0_l _) BN) as (R1 & R2). cbn [fst snd].
        assert (BM : (b_max b <= b_max (raise_max n b))%N) by (unfold raise_max; destruct (N.ltb_spec (b_max b) n); cbn; lia).
        split; [apply marks_refl|]. split; [|split; [exact BM|]].
        + split; [|split].
          * replace (b_rows (raise_max n b)) with (b_rows b) by (unfold raise_max; destruct (b_max b <? n)%N; reflexivity).
            eapply (view_seen H lo1 hi1 (pend_of an) (pend_of an) (b_max b)); eauto. intros e Ie Re. specialize (R2 e Ie Re). lia.
          * unfold raise_max. destruct (b_max b <? n)%N; auto.
          * intros _ e Ie O Re _. specialize (R2 e Ie (or_intror Re)). lia.
        + intros e Ie Re. specialize (R2 e Ie Re). lia.
      - destruct (slot_apply_ok H top lo1 hi1 g an a1 (l_max l) false b HO AO1 Ka M FT) as (R1 & R2 & R3 & R4). auto. }
    destruct Y as [b' an']. cbn [fst snd] in YO. destruct YO as (Q1 & Q2 & Q3 & Q4). destruct AC as (s' & U' & _ & K'). rewrite U'.
    exists (Leaf (l_max l) false s'), an', (b_rows b'). split; [reflexivity|].
    pose proof (mks_hist H _ _ _ _ (mks_of _ _ _ _ Q1) IP) as IP'. split; [eapply marks_sub; eauto|]. split; [|split; [exact B1|split; [exact S1|]]].
    + split; [exact IP'|]. split; [exact LT|]. cbn [l_parts l_max l_dirty]. split; [|discriminate]. apply K'.
      * intros lo2 hi2 x Kx _ Dx. eapply (slot_marks H top lo1 hi1); eauto.
      * cbn [seg_all]. split; [exact B1|]. split; cbn [s_mem s_disk].
        -- split; [exact Q2|]. intros _. destruct Kb as (_ & Kb). specialize (Kb eq_refl). lia.
        -- intros _. eapply view_ext; [exact ok|apply Kd; reflexivity|]. intros n m _ _. unfold todo, mem.
           assert (ME : (exists e, In e (pend_of an) /\ e_msn e = n) <-> (exists e, In e (pend_of an') /\ e_msn e = n)); [|rewrite ME; tauto].
           pose proof (mks_of _ _ _ _ Q1) as MO. split.
           ++ intros (e & Ie & <-). destruct (mks_In2 _ _ _ _ MO e Ie) as (e' & Ie' & Z & _). eauto.
           ++ intros (e' & Ie' & <-). destruct (mks_In _ _ _ _ MO e' Ie') as (e & Ie & Z & _). eauto.
    + destruct Q2 as (V & _ & _). split; [apply V|]. split; [apply V|]. intros k Rk. eapply bn_done; eauto.
Qed.

Lemma leaf_query_ok H top lo hi (g : G) k an (l : leaf) : hist_ok H top -> anc_ok H top lo hi an -> leaf_ok H top lo hi (pend_of an) (pend_of an) l -> (forall e, In e (pend_of an) -> fits g (e_msn e)) -> in_rng c lo hi k ->
  exists l' an' r, leaf_query g k lo hi an l = Ok (l', an', r) /\ marks lo hi an an' /\ leaf_ok H top lo hi (pend_of an') (pend_of an') l' /\ made H k r.
Proof.
  intros HO AO LO FT Rk. unfold leaf_query. pose proof LO as (_ & _ & SA & _).
  destruct (seg_all_psorted ok _ _ _ _ SA) as (SS & _). destruct (which_child_ok ok k _ SS) as (i & W & FTk). rewrite W. cbn [must].
  destruct (leaf_pin_ok H top lo hi g i (fun _ _ => rows_find k) an l HO AO LO FT (proj1 FTk)) as (l' & an' & rs & Q & M & LO' & _ & _ & (_ & _ & O)).
  exists l', an', (rows_find k rs). split; [exact Q|]. split; [exact M|]. split; [exact LO'|]. apply O. eapply which_rng; eauto.
Qed.

(** ** The tree *)
Definition answered (H : hist) (top : N) (h : nat) (k : bytes) (lo hi : bound) an t (x : tree * ancs * option L) : Prop :=
  let '(u, an', r) := x in
  marks lo hi an an' /\ wf H top h lo hi (pend_of an') u /\ (forall B, mx_lt B t -> mx_lt B u) /\ made H k r.

Lemma query_ok H top (g : G) k : hist_ok H top -> forall h lo hi an t, anc_ok H top lo hi an -> wf H top h lo hi (pend_of an) t -> in_rng c lo hi k ->
  (forall pend u, node_at (path_to h k t) (pend_of an) t = Some (pend, u) -> forall e, In e pend -> fits g (e_msn e)) ->
  outc (query h g k lo hi an t) (answered H top h k lo hi an t).
Proof.
  intros HO. induction h as [|h IH]; intros lo hi an [l|mx lk ch] AO W Rk FT; try contradiction.
  - cbn [query]. cbn [wf] in W. destruct (leaf_query_ok H top lo hi g k an l HO AO W (FT _ _ eq_refl) Rk) as (l' & an' & r & -> & Q1 & Q2 & Q3). cbn. auto.
  - cbn [query]. pose proof W as (T & IP & M & _ & SA). destruct (free lk) eqn:FR; [|exact Logic.I]. apply (seg_all_with_In ok) in SA.
    destruct (seg_which_nth ok _ _ _ _ _ SA Rk) as (i & lo1 & hi1 & x & WC & Rk1 & ((BO & Wx) & Ix) & B1 & S1 & Nx & AC). rewrite WC. cbn [must].
    match goal with |- context [seg_upd lo hi i ?f ch] => specialize (AC _ f) end. cbn beta in AC.
    destruct (node_child H top h lo hi (pend_of an) mx lk ch lo1 hi1 x W Ix S1) as (NC & _).
    assert (AO1 : anc_ok H top lo1 hi1 ((mx, fst x) :: an)).
    { destruct BO as (BO1 & BO2). cbn [anc_ok]. split; [exact BO1|]. split; [intros e Ie; apply BO2; auto|]. split; [intros e Ie; apply BO2; auto|].
      split; [exact T|]. split; [intros e Ie R; apply NC; auto|]. eapply anc_sub; eauto. }
    assert (FT1 : forall pend u, node_at (path_to h k (snd x)) (pend_of ((mx, fst x) :: an)) (snd x) = Some (pend, u) -> forall e, In e pend -> fits g (e_msn e)).
    { intros pend u Q. apply (FT pend u). cbn [path_to]. rewrite WC, Nx. cbn [node_at]. rewrite Nx. exact Q. }
    specialize (IH lo1 hi1 ((mx, fst x) :: an) (snd x) AO1 Wx Rk1 FT1).
    destruct (query h g k lo1 hi1 ((mx, fst x) :: an) (snd x)) as [[[u an1] r]| |]; cbn [outc answered] in IH; [|cbn in AC; rewrite AC; exact Logic.I|contradiction].
    destruct IH as (MK & Wu & MX & OUT). inversion MK as [|? [mx' buf'] ? an' (Q & F) MK' E1 E2]; subst an1. cbn [fst snd] in Q, F. subst mx'.
    destruct AC as (ch' & U & IN & K). rewrite U. cbn [outc answered].
    split; [eapply marks_sub; eauto|].
    assert (IP' : in_hist H (pend_of an')) by (eapply mks_hist; [apply (mks_of _ _ _ _ MK')|exact IP]).
    assert (MX' : forall B, mx_lt B (TNode mx lk ch) -> mx_lt B (TNode mx lk ch')).
    { intros B. rewrite !mx_lt_node. intros (Z1 & Z2). split; [exact Z1|]. intros y Iy. destruct (IN y Iy) as [Iy'|[<-|[]]]; auto. }
    split; [|split; [exact MX'|exact OUT]].
    cbn [wf]. split; [exact T|]. split; [exact IP'|]. split.
    { intros e' Ie' R. destruct (mks_In _ _ _ _ (mks_of _ _ _ _ MK') e' Ie') as (e & Ie & Q1 & Q2 & _). rewrite Q1. apply MX'. apply M; auto. rewrite <- Q2. auto. }
    split; [intros ->; discriminate|]. apply K.
    + intros lo2 hi2 y ((By & Wy) & Iy) Sy D. split; [exact By|]. eapply (wf_pend ok); [exact HO|exact Wy| |].
      * apply peq_app. eapply mks_peq; [exact D|]. apply mks_of; auto.
      * intros e Ie. apply in_app_or in Ie. destruct Ie as [Ie|Ie]; [apply By; auto|auto].
    + cbn [seg_all fst snd]. split; [exact B1|]. split; [|exact Wu]. destruct BO as (BO1 & BO2). split; [rewrite (mks_msn _ _ _ _ F); exact BO1|].
      intros e' Ie'. destruct (mks_In _ _ _ _ F e' Ie') as (e & Ie & -> & -> & _). auto.
Qed.
End Q.
