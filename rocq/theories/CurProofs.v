(** One attempt of a search: the basement node, the leaf, the tree. *)
From Verif Require Import Base Bytes LtSpec KOrd PivotModel PivotProofs PropsPivot FtModel FtSpec FtSeg FtRows FtInv FtPut FtOps FtOps3 FtQuery CurModel CurSpec.
From Coq Require Import Sorted.
Open Scope nat_scope.

Lemma SS_app {X} (R : X -> X -> Prop) l1 l2 : StronglySorted R (l1 ++ l2) <-> StronglySorted R l1 /\ StronglySorted R l2 /\ forall a b, In a l1 -> In b l2 -> R a b.
Proof.
  induction l1 as [|x l1 IH]; cbn.
  - split; [intros S; split; [constructor|]; split; [exact S|intros a b []]|tauto].
  - split.
    + intros S. inversion S as [|? ? S' F]; subst. rewrite Forall_app in F. apply IH in S'. destruct S' as (S1 & S2 & S3). split; [constructor; tauto|]. split; [exact S2|].
      intros a b [<-|I] Ib; [|auto]. destruct F as (_ & F). rewrite Forall_forall in F. auto.
    + intros (S1 & S2 & S3). inversion S1; subst. constructor; [apply IH; auto|]. apply Forall_app. split; [assumption|]. apply Forall_forall. auto.
Qed.
Lemma SS_rev {X} (R : X -> X -> Prop) l : StronglySorted R l -> StronglySorted (fun a b => R b a) (rev l).
Proof.
  induction 1 as [|x l S IH F]; cbn; [constructor|]. apply SS_app. split; [exact IH|]. split; [repeat constructor|].
  intros a b I [<-|[]]. rewrite <- in_rev in I. rewrite Forall_forall in F. auto.
Qed.

Section C.
Context {E : env} {TM : timing E} (ok : cmp_ok (kcmp E)).
Local Notation c := (kcmp E).
Local Notation L := (L E).
Local Notation G := (G E).
Local Notation rows := (rows E).
Local Notation leaf := (leaf E).
Local Notation tree := (tree E).
Local Notation ancs := (ancs E).
Variable del : L -> bool.

(** ** Rows *)
Lemma rows_find_some (y : bytes) (rs : rows) v : rows_find y rs = Some v -> exists x, In (x, v) rs /\ keq c y x.
Proof.
  induction rs as [|[x w] rs IH]; cbn; [discriminate|]. destruct (keqb c y x) eqn:Q.
  - intros [= ->]. exists x. split; [auto|]. apply keqb_true in Q. exact Q.
  - intros F. destruct (IH F) as (x' & I & K). exists x'. auto.
Qed.
Lemma rows_find_in (rs : rows) x y v : rsorted rs -> In (x, v) rs -> keq c y x -> rows_find y rs = Some v.
Proof.
  induction rs as [|[z w] rs IH]; cbn; [tauto|]. intros S I K. apply rsorted_cons in S. destruct S as (F & S). destruct I as [[= -> ->]|I].
  - apply keqb_true in K. rewrite K. reflexivity.
  - rewrite Forall_forall in F. specialize (F _ I). cbn in F. destruct (keqb c y z) eqn:Q; [exfalso; kord ok|]. auto.
Qed.

(** ** Directions *)
Lemma cb_trans d x y z : comes_before (E:=E) d x y -> comes_before (E:=E) d y z -> comes_before (E:=E) d x z.
Proof. destruct d; cbn; intros; kord ok. Qed.
Lemma cb_irrefl d x y : keq c x y -> ~ comes_before (E:=E) d x y.
Proof. destruct d; cbn; intros K B; kord ok. Qed.
Lemma cb_keq_l d x x' y : keq c x x' -> comes_before (E:=E) d x y -> comes_before (E:=E) d x' y.
Proof. destruct d; cbn; intros; kord ok. Qed.
Lemma cb_keq_r d x y y' : keq c y y' -> comes_before (E:=E) d x y -> comes_before (E:=E) d x y'.
Proof. destruct d; cbn; intros; kord ok. Qed.
Lemma na_iff d x y : not_after (E:=E) d x y <-> ~ comes_before (E:=E) d y x.
Proof. destruct d; cbn; [apply (kle_not ok)|apply (kle_not ok)]. Qed.
Lemma na_cases d x y : not_after (E:=E) d x y -> comes_before (E:=E) d x y \/ keq c x y.
Proof.
  destruct d; cbn; intros H.
  - destruct (klt_or_kle ok x y); [auto|]. right. apply (keq_kle ok). auto.
  - destruct (klt_or_kle ok y x); [auto|]. right. apply (keq_kle ok). auto.
Qed.
Lemma cb_na d x y : comes_before (E:=E) d x y -> not_after (E:=E) d x y.
Proof. destruct d; cbn; intros; kord ok. Qed.
Lemma na_refl d x : not_after (E:=E) d x x.
Proof. destruct d; cbn; apply (kle_refl ok). Qed.
Lemma cb_total d x y : comes_before (E:=E) d x y \/ keq c x y \/ comes_before (E:=E) d y x.
Proof.
  destruct (keqb c x y) eqn:Q; [apply keqb_true in Q; auto|]. apply keqb_false in Q. apply (nkeq ok) in Q. destruct d; cbn; tauto.
Qed.

Lemma wants_keq f k x y : keq c x y -> wants (E:=E) f k x -> wants (E:=E) f k y.
Proof. destruct f; cbn; intros; try exact Logic.I; kord ok. Qed.
Lemma wants_mono d f k x y : sf_dir d f = true -> comes_before (E:=E) d x y -> wants (E:=E) f k x -> wants (E:=E) f k y.
Proof. destruct f, d; cbn; intros; try discriminate; try exact Logic.I; kord ok. Qed.
Lemma sf_wants f k x : sf_compare c f k x = true <-> wants (E:=E) f k x.
Proof. apply (sf_wanted c ok). Qed.

(** ** The basement node *)
Lemma from_first_ok (p : bytes -> bool) (rs : rows) : exists l1, rs = l1 ++ from_first p rs /\ (forall x v, In (x, v) l1 -> p x = false) /\
  match from_first p rs with [] => True | x :: _ => p (fst x) = true end.
Proof.
  induction rs as [|[x v] rs (l1 & Q & F & T)]; cbn.
  - exists []. cbn. split; [reflexivity|]. split; [intros ? ? []|exact Logic.I].
  - destruct (p x) eqn:P.
    + exists []. cbn. split; [reflexivity|]. split; [intros ? ? []|exact P].
    + exists ((x, v) :: l1). cbn. split; [congruence|]. split; [|exact T]. intros y w [[= <- <-]|I]; eauto.
Qed.

Definition skipped (q : srch) (rs l1 l2 : rows) : Prop :=
  rs = l1 ++ l2 /\ (forall x v, In (x, v) l1 -> del v = true).
Lemma skip_del_ok q : forall (rs : rows) n, 
  match skip_del del q n rs with
  | [] => exists l1 l2, skipped q rs l1 l2 /\ (l2 = [] \/ exists x v l0, l1 = l0 ++ [(x, v)] /\ past_kbound (E:=E) q x = true)
  | (x, v) :: r => exists l1, skipped q rs l1 ((x, v) :: r) /\ del v = false
  end.
Proof.
  induction rs as [|[x v] rs IH]; intros n; cbn [skip_del].
  - exists [], []. split; [split; [reflexivity|intros ? ? []]|]. auto.
  - destruct (del v) eqn:D.
    + destruct ((n mod 64 =? 0)%N && past_kbound q x)%bool eqn:K.
      * exists [(x, v)], rs. split; [split; [reflexivity|]|].
        -- intros y w [[= <- <-]|[]]. exact D.
        -- right. exists x, v, []. split; [reflexivity|]. apply andb_true_iff in K. apply K.
      * specialize (IH (n + 1)%N). destruct (skip_del del q (n + 1) rs) as [|[y w] r].
        -- destruct IH as (l1 & l2 & (Q & F) & T). exists ((x, v) :: l1), l2. split; [split; [cbn; congruence|]|].
           ++ intros z u [[= <- <-]|I]; eauto.
           ++ destruct T as [T|(z & u & l0 & -> & P)]; [auto|]. right. exists z, u, ((x, v) :: l0). auto.
        -- destruct IH as (l1 & (Q & F) & T). exists ((x, v) :: l1). split; [split; [cbn; congruence|]|exact T].
           intros z u [[= <- <-]|I]; eauto.
    + exists []. split; [split; [reflexivity|intros ? ? []]|exact D].
Qed.

Definition live (rs : rows) : rows := filter (fun xv => negb (del (snd xv))) rs.
Lemma live_In x v rs : In (x, v) (live rs) <-> In (x, v) rs /\ del v = false.
Proof. unfold live. rewrite filter_In. cbn. rewrite negb_true_iff. tauto. Qed.

Lemma shortcut_ok rst d cbk : forall (rs hd : rows) cur out cur' rf,
  shortcut del rst d cbk hd cur rs = RRows out cur' rf ->
  exists m tl, rs = m ++ tl /\ out = hd ++ live m /\
    ((rf = false /\ ((live m = [] /\ cur' = cur) \/ exists o v, live m = o ++ [(cur', v)])) \/
     ((rf = true \/ in_restr (E:=E) rst (Some d) cur' = false) /\ exists v tl', tl = (cur', v) :: tl' /\ del v = false)).
Proof.
  induction rs as [|[x v] rs IH]; intros hd cur out cur' rf Q; cbn [shortcut] in Q.
  - injection Q as <- <- <-. exists [], []. cbn. rewrite app_nil_r. split; [reflexivity|]. split; [reflexivity|]. left. split; [reflexivity|]. left. split; reflexivity.
  - destruct (del v) eqn:D.
    + destruct (IH _ _ _ _ _ Q) as (m & tl & -> & -> & K). exists ((x, v) :: m), tl. unfold live in *. cbn. rewrite D. cbn. auto.
    + assert (STOP : forall b, hd = out -> x = cur' -> b = rf -> b = true \/ in_restr (E:=E) rst (Some d) x = false -> exists m tl, (x, v) :: rs = m ++ tl /\ out = hd ++ live m /\
        ((rf = false /\ ((live m = [] /\ cur' = cur) \/ exists o v, live m = o ++ [(cur', v)])) \/
         ((rf = true \/ in_restr (E:=E) rst (Some d) cur' = false) /\ exists v tl', tl = (cur', v) :: tl' /\ del v = false))).
      { intros b <- <- <- T. exists [], ((x, v) :: rs). cbn. rewrite app_nil_r. split; [reflexivity|]. split; [reflexivity|]. right. split; [exact T|]. exists v, rs. auto. }
      destruct (in_restr rst (Some d) x) eqn:IR.
      * destruct (cb_row cbk hd x v).
        -- injection Q as <- <- <-. exists [(x, v)], rs. unfold live. cbn. rewrite D. cbn. split; [reflexivity|]. split; [reflexivity|]. left. split; [reflexivity|]. right. exists [], v. reflexivity.
        -- destruct (IH _ _ _ _ _ Q) as (m & tl & -> & -> & K). exists ((x, v) :: m), tl. unfold live in *. cbn. rewrite D. cbn. rewrite <- app_assoc. cbn.
           split; [reflexivity|]. split; [reflexivity|]. destruct K as [(K1 & K2)|K]; [|auto]. left. split; [exact K1|]. right.
           destruct K2 as [(-> & ->)|(o & w & ->)]; [exists [], v; reflexivity|]. exists ((x, v) :: o), w. reflexivity.
        -- injection Q as <- <- <-. eapply STOP; eauto.
        -- injection Q as <- <- <-. eapply STOP; eauto.
      * injection Q as <- <- <-. eapply STOP; eauto.
Qed.
Lemma shortcut_rows rst d cbk : forall (rs hd : rows) cur, exists out cur' rf, shortcut del rst d cbk hd cur rs = RRows out cur' rf.
Proof.
  induction rs as [|[x v] rs IH]; intros hd cur; cbn [shortcut]; [eauto|]. destruct (del v); [auto|]. destruct (in_restr rst (Some d) x); [|eauto].
  destruct (cb_row cbk hd x v); eauto.
Qed.

(** What the callback has said to what it was given. *)
Definition took (cbk : cb E) (x : bytes) (v : L) : Prop := exists hd, cb_row cbk hd x v = AOk \/ cb_row cbk hd x v = AMore.
Definition why (rst : restr) (dir : option sdir) (cbk : cb E) (r : sres E) : Prop :=
  match r with
  | RRows out _ rf => (forall x v, In (x, v) out -> took cbk x v) /\ (rf = true -> exists x v, cb_row cbk [] x v = AMore)
  | RStop x false j => in_restr (E:=E) rst dir x = false \/ exists v, cb_row cbk [] x v = (if j then AReject else AErr)
  | RStop x true j => if j then cb_pivot cbk x = AReject else cb_pivot cbk x <> AOk
  | _ => True
  end.
Lemma shortcut_why rst dir d cbk : (exists x v, cb_row cbk [] x v = AMore) -> forall (rs hd : rows) cur, (forall x v, In (x, v) hd -> took cbk x v) -> why rst dir cbk (shortcut del rst d cbk hd cur rs).
Proof.
  intros MO. induction rs as [|[x v] rs IH]; intros hd cur F; cbn [shortcut]; [split; [exact F|auto]|]. destruct (del v); [auto|]. destruct (in_restr rst (Some d) x); [|split; [exact F|auto]].
  assert (F' : took cbk x v -> forall y w, In (y, w) (hd ++ [(x, v)]) -> took cbk y w). { intros T y w I. apply in_app_or in I. destruct I as [I|[[= <- <-]|[]]]; auto. }
  destruct (cb_row cbk hd x v) eqn:CB; [|apply IH| |]; try (split; [exact F|auto]); assert (T : took cbk x v) by (exists hd; auto); [split; [exact (F' T)|auto]|exact (F' T)].
Qed.
Lemma bn_step_why q bulk rst dir cbk lo hi rs : why rst dir cbk (bn_step del q bulk rst dir cbk lo hi rs).
Proof.
  unfold bn_step, bn_search. destruct (skip_del del q 1 _) as [|[x v] r].
  - destruct (match q_dir q with SLeft => hi | SRight => lo end) as [p|]; [|exact Logic.I]. destruct (cb_pivot cbk p) eqn:CP; cbn; first [exact Logic.I|congruence].
  - destruct (in_restr rst dir x) eqn:IR; [|cbn; auto].
    assert (T1 : took cbk x v -> forall y w, In (y, w) [(x, v)] -> took cbk y w). { intros T y w [[= <- <-]|[]]. exact T. }
    destruct (cb_row cbk [] x v) eqn:CB.
    + assert (T : took cbk x v) by (exists []; auto). split; [exact (T1 T)|discriminate].
    + assert (T : took cbk x v) by (exists []; auto). destruct bulk; [apply shortcut_why; eauto|split; [exact (T1 T)|discriminate]].
    + cbn. eauto.
    + cbn. eauto.
Qed.
Lemma after_why rst dir cbk q pv i r : why rst dir cbk r -> why rst dir cbk (after q pv i r).
Proof. destruct r; cbn [after]; auto. destruct (saved q pv i) as [p|]; [|auto]. intros _. destruct (q_dir q); [|exact Logic.I]. destruct (q_kbound q) as [kb|]; [|exact Logic.I]. destruct (kltb c p kb); exact Logic.I. Qed.

(** ** What one attempt has found out *)
Variable q : srch.
Hypothesis legal : sf_dir (q_dir q) (q_fun q) = true.
Local Notation d := (q_dir q).
Local Notation W := (wants (E:=E) (q_fun q) (q_key q)).
Local Notation B := (comes_before (E:=E) d).

Definition within_kb (y : bytes) : Prop := match d, q_kbound q with SLeft, Some kb => kle c y kb | _, _ => True end.

(** [K y]: it is known that the reader sees no row for [y]. *)
Definition rows_good (rst : restr) (bulk : bool) (O : bytes -> option L -> Prop) (K : bytes -> Prop) (out : list (bytes * L)) (cur : bytes) (rf : bool) : Prop :=
  out <> [] /\
  StronglySorted B (map fst out) /\
  (forall x v, In (x, v) out -> W x /\ sees_in del O x v /\ not_after (E:=E) d x cur) /\
  (forall y, W y -> not_after (E:=E) d y cur -> K y \/ has_key out y \/ keq c y cur) /\
  ((exists v, out = [(cur, v)]) \/ (bulk = true /\ ((exists o v, out = o ++ [(cur, v)]) \/ rf = true \/ in_restr (E:=E) rst (Some d) cur = false))) /\
  W cur /\ (exists v, sees_in del O cur v).
Definition stop_good (O : bytes -> option L -> Prop) (K : bytes -> Prop) (x : bytes) : Prop :=
  W x /\ (forall y, W y -> B y x -> K y) /\ exists v, sees_in del O x v.

Lemma rows_good_impl rst bulk O (K K' : bytes -> Prop) out cur rf : (forall y, W y -> not_after (E:=E) d y cur -> K y -> K' y) -> rows_good rst bulk O K out cur rf -> rows_good rst bulk O K' out cur rf.
Proof. intros I (R1 & R2 & R3 & R4 & R5). split; [auto|]. split; [auto|]. split; [auto|]. split; [|auto]. intros y Wy N. destruct (R4 y Wy N) as [H|H]; auto. Qed.
Lemma stop_good_impl O (K K' : bytes -> Prop) x : (forall y, W y -> B y x -> K y -> K' y) -> stop_good O K x -> stop_good O K' x.
Proof. intros I (R1 & R2 & R3). split; [auto|]. split; auto. Qed.

Lemma in_dir_In xv (rs : rows) : In xv (in_dir d rs) <-> In xv rs.
Proof. unfold in_dir. destruct d; [tauto|]. rewrite <- in_rev. tauto. Qed.
Lemma in_dir_sorted (rs : rows) : rsorted rs -> StronglySorted B (map fst (in_dir d rs)).
Proof. unfold in_dir, rsorted. destruct d; cbn; [auto|]. intros S. rewrite map_rev. apply SS_rev in S. exact S. Qed.

(** Which keys a basement node is silent about: those outside its range. *)
Definition known (O : bytes -> option L -> Prop) (lo hi : bound) (y : bytes) : Prop := in_rng c lo hi y -> unseen_in del O y.

Lemma bn_search_ok (O : bytes -> option L -> Prop) lo hi rs bulk rst dir cbk :
  rsorted rs -> rin lo hi rs -> (forall k, in_rng c lo hi k -> O k (rows_find k rs)) ->
  match bn_search del q bulk rst dir cbk rs with
  | None => forall y, W y -> within_kb y -> known O lo hi y
  | Some (RRows out cur rf) => rows_good rst bulk O (known O lo hi) out cur rf /\ in_rng c lo hi cur
  | Some (RStop x pv _) => pv = false /\ stop_good O (known O lo hi) x /\ in_rng c lo hi x
  | Some _ => False
  end.
Proof.
  intros S RI HO.
  (* a key without a row, or with a deleted one *)
  assert (SEE : forall x v, In (x, v) rs -> del v = false -> sees_in del O x v).
  { intros x v I D. split; [|exact D]. rewrite <- (rows_find_in rs x x v S I (keq_refl ok x)). apply HO. unfold rin in RI. rewrite Forall_forall in RI. apply (RI _ I). }
  assert (UN : forall y, in_rng c lo hi y -> (forall x v, In (x, v) rs -> keq c y x -> del v = true) -> unseen_in del O y).
  { intros y R U. exists (rows_find y rs). split; [apply HO; exact R|]. destruct (rows_find y rs) as [v|] eqn:F; [|exact Logic.I].
    destruct (rows_find_some _ _ _ F) as (x & I & K). eauto. }
  unfold bn_search. pose proof (in_dir_sorted rs S) as SD.
  assert (MEM : forall xv, In xv rs <-> In xv (in_dir d rs)) by (intros; symmetry; apply in_dir_In).
  set (l := in_dir d rs) in *. clearbody l.
  destruct (from_first_ok (sf_compare c (q_fun q) (q_key q)) l) as (l0 & Q0 & F0 & T0).
  set (l' := from_first (sf_compare c (q_fun q) (q_key q)) l) in *. clearbody l'.
  assert (NW : forall x v, In (x, v) l0 -> ~ W x). { intros x v I. rewrite <- sf_wants. rewrite (F0 x v I). discriminate. }
  pose proof (skip_del_ok q l' 1%N) as SK. destruct (skip_del del q 1 l') as [|[x v] r].
  - destruct SK as (l1 & l2 & (Q1 & D1) & T). intros y Wy KB R. apply UN; [exact R|]. intros x v I K. apply MEM in I. rewrite Q0, Q1 in I.
    apply in_app_or in I. destruct I as [I|I]; [exfalso; eapply NW; [exact I|]; eapply wants_keq; eauto|].
    apply in_app_or in I. destruct I as [I|I]; [eauto|]. exfalso. destruct T as [->|(z & u & l3 & -> & P)]; [destruct I|].
    unfold past_kbound in P. unfold within_kb in KB. rewrite Q0, Q1 in SD. rewrite !map_app in SD. apply SS_app in SD. destruct SD as (_ & SD & _). apply SS_app in SD. destruct SD as (_ & _ & SD).
    specialize (SD z x). cbn in SD. unfold comes_before in SD. destruct d; [|discriminate]. destruct (q_kbound q) as [kb|]; [|discriminate].
    assert (klt c z x). { apply SD; [apply in_or_app; right; left; reflexivity|]. apply in_map_iff. exists (x, v). auto. }
    kord ok.
  - destruct SK as (l1 & (Q1 & D1) & Dv).
    assert (Ix : In (x, v) rs) by (apply MEM; rewrite Q0, Q1; apply in_or_app; right; apply in_or_app; right; left; reflexivity).
    assert (Wx : W x).
    { destruct l1 as [|[x1 v1] l1]; [subst l'; apply sf_wants; exact T0|]. assert (W x1) by (apply sf_wants; subst l'; exact T0).
      eapply wants_mono; [exact legal| |eassumption]. rewrite Q0, map_app in SD. apply SS_app in SD. destruct SD as (_ & SD & _). rewrite Q1 in SD. cbn in SD. inversion SD as [|? ? _ F]; subst. rewrite Forall_forall in F. apply F. rewrite map_app. apply in_or_app. right. left. reflexivity. }
    assert (RNG : forall z u, In (z, u) rs -> in_rng c lo hi z) by (intros z u I; unfold rin in RI; rewrite Forall_forall in RI; apply (RI _ I)).
    (* everything between the start and a place in [r] *)
    assert (COV : forall m tl cur, r = m ++ tl -> (forall z u, In (z, u) ((x, v) :: m) -> not_after (E:=E) d z cur) -> (forall z u, In (z, u) tl -> not_after (E:=E) d cur z) ->
      forall y, W y -> not_after (E:=E) d y cur -> known O lo hi y \/ has_key ((x, v) :: live m) y \/ keq c y cur).
    { intros m tl cur -> PRE POST y Wy N.
      destruct (rows_find y rs) as [w|] eqn:F.
      - destruct (rows_find_some _ _ _ F) as (z & I & K). apply MEM in I. rewrite Q0, Q1 in I.
        apply in_app_or in I. destruct I as [I|I]; [exfalso; eapply NW; [exact I|]; eapply wants_keq; eauto|].
        assert (DEAD : del w = true -> known O lo hi y). { intros Dw R. exists (Some w). split; [rewrite <- F; apply HO; exact R|exact Dw]. }
        apply in_app_or in I. destruct I as [I|I]; [left; apply DEAD; eauto|]. destruct I as [[= -> ->]|I].
        + right. left. exists z, w. split; [left; reflexivity|apply (keq_sym ok); exact K].
        + apply in_app_or in I. destruct I as [I|I].
          * destruct (del w) eqn:Dw; [auto|]. right. left. exists z, w. split; [right; apply live_In; auto|apply (keq_sym ok); exact K].
          * right. right. specialize (POST z w I). apply na_cases in POST. destruct POST as [Z|Z].
            -- exfalso. apply na_iff in N. apply N. eapply cb_keq_r; [apply (keq_sym ok); exact K|exact Z].
            -- apply (keq_sym ok) in Z. clear - K Z ok. kord ok.
      - left. intros R. exists None. split; [rewrite <- F; apply HO; exact R|exact Logic.I]. }
    assert (SR : StronglySorted B (map fst ((x, v) :: r))). { rewrite Q0, Q1, !map_app in SD. apply SS_app in SD. destruct SD as (_ & SD & _). apply SS_app in SD. apply SD. }
    assert (AFT : forall z u, In (z, u) r -> B x z). { intros z u I. cbn in SR. inversion SR as [|? ? _ F]; subst. rewrite Forall_forall in F. apply F. apply in_map_iff. exists (z, u). auto. }
    assert (Ir : forall z u, In (z, u) r -> In (z, u) rs). { intros z u I. apply MEM. rewrite Q0, Q1. apply in_or_app. right. apply in_or_app. right. right. exact I. }
    assert (SINGLE : rows_good rst bulk O (known O lo hi) [(x, v)] x false /\ in_rng c lo hi x).
    { split; [|eauto]. split; [discriminate|]. split; [repeat constructor|]. split; [|split; [|split; [|split; [exact Wx|exists v; auto]]]].
      - intros z u [[= <- <-]|[]]. split; [exact Wx|]. split; [auto|apply na_refl].
      - intros y Wy N. destruct (COV [] r x eq_refl) with (y := y) as [Z|[Z|Z]]; auto.
        + intros z u [[= <- <-]|[]]. apply na_refl.
        + intros z u I. apply cb_na. eauto.
      - left. exists v. reflexivity. }
    assert (STOP : stop_good O (known O lo hi) x /\ in_rng c lo hi x).
    { split; [|eauto]. split; [exact Wx|]. split; [|exists v; auto]. intros y Wy Bx. destruct (proj1 SINGLE) as (_ & _ & _ & K & _). destruct (K y Wy (cb_na _ _ _ Bx)) as [Z|[(z & u & [[= <- <-]|[]] & Z)|Z]]; auto; exfalso.
      - eapply cb_irrefl; [|exact Bx]. apply (keq_sym ok). exact Z.
      - eapply cb_irrefl; [|exact Bx]. exact Z. }
    destruct (in_restr rst dir x); [|split; [reflexivity|exact STOP]].
    destruct (cb_row cbk [] x v) eqn:CB; [exact SINGLE| |split; [reflexivity|exact STOP]|split; [reflexivity|exact STOP]].
    destruct bulk; [|exact SINGLE].
    destruct (shortcut_rows rst d cbk r [(x, v)] x) as (out & cur & rf & Q). rewrite Q.
    destruct (shortcut_ok rst d cbk r [(x, v)] x out cur rf Q) as (m & tl & Er & -> & CASES). cbn [app] in *.
    assert (SOUT : StronglySorted B (map fst ((x, v) :: live m))).
    { rewrite Er in SR. cbn in SR |- *. inversion SR as [|? ? S1 F1]; subst. rewrite map_app in S1, F1. apply SS_app in S1. destruct S1 as (S1 & _). apply Forall_app in F1. destruct F1 as (F1 & _).
      constructor.
      - clear - S1. induction m as [|a m IH]; cbn; [constructor|]. cbn in S1. inversion S1 as [|? ? S2 F2]; subst. unfold live in *. cbn. destruct (negb (del (snd a))); [|auto]. cbn. constructor; [auto|].
        rewrite Forall_forall in *. intros z I. apply F2. apply in_map_iff in I. destruct I as (w & <- & I). apply filter_In in I. apply in_map. tauto.
      - rewrite Forall_forall in *. intros z I. apply F1. apply in_map_iff in I. destruct I as (w & <- & I). unfold live in I. apply filter_In in I. apply in_map. tauto. }
    assert (INO : forall z u, In (z, u) ((x, v) :: live m) -> In (z, u) rs /\ del u = false /\ W z).
    { intros z u [[= <- <-]|I]; [auto|]. apply live_In in I. destruct I as (I & Dz). assert (In (z, u) r) by (rewrite Er; apply in_or_app; auto). split; [auto|]. split; [exact Dz|]. eapply wants_mono; eauto. }
    (* where [cur] is *)
    assert (CUR : (exists u, In (cur, u) rs /\ del u = false) /\ W cur /\
      (exists m' tl', r = m' ++ tl' /\ live m' = live m /\ (forall z u, In (z, u) ((x, v) :: m') -> not_after (E:=E) d z cur) /\ (forall z u, In (z, u) tl' -> not_after (E:=E) d cur z)) /\
      ((exists o u, (x, v) :: live m = o ++ [(cur, u)]) \/ rf = true \/ in_restr (E:=E) rst (Some d) cur = false)).
    { destruct CASES as [(Erf & CASES)|(RF & u & tl' & Etl & Du)].
      - destruct CASES as [(LN & ->)|(o & u & LM)].
        + split; [exists v; auto|]. split; [exact Wx|]. split; [|left; exists [], v; rewrite LN; reflexivity].
          (* the cursor is on the first row: cut right behind it *)
          exists [], r. split; [reflexivity|]. split; [rewrite LN; reflexivity|]. split; [intros z u [[= <- <-]|[]]; apply na_refl|]. intros z u I. apply cb_na. eauto.
        + assert (Iu : In (cur, u) (live m)) by (rewrite LM; apply in_or_app; right; left; reflexivity).
          apply live_In in Iu. destruct Iu as (Iu & Du). assert (Ir' : In (cur, u) r) by (rewrite Er; apply in_or_app; auto).
          split; [exists u; auto|]. split; [eapply wants_mono; eauto|]. split; [|left; exists ((x, v) :: o), u; rewrite LM; reflexivity].
          (* cut right behind the cursor *)
          apply in_split in Iu. destruct Iu as (ma & mb & Em).
          exists (ma ++ [(cur, u)]), (mb ++ tl). rewrite Er, Em. rewrite <- !app_assoc. cbn [app]. split; [reflexivity|].
          rewrite Er, Em in SR. cbn in SR. inversion SR as [|? ? S1 F1]; subst. rewrite <- app_assoc in S1. cbn in S1. rewrite map_app in S1. apply SS_app in S1. destruct S1 as (Sa & Sb & Sab). cbn in Sb, Sab. inversion Sb as [|? ? Sb1 Fb]; subst.
          split; [|split].
          * assert (LB0 : live mb = []); [|unfold live in *; rewrite !filter_app; cbn; rewrite Du; cbn; rewrite LB0; reflexivity].
            destruct (live mb) as [|[z w] t] eqn:LB; [reflexivity|exfalso].
            assert (Iz : In (z, w) (live mb)) by (rewrite LB; left; reflexivity). apply live_In in Iz. destruct Iz as (Iz & Dz).
            rewrite Forall_forall in Fb. assert (BZ : B cur z) by (apply Fb; rewrite map_app; apply in_or_app; left; apply in_map_iff; exists (z, w); auto).
            assert (Io : In (z, w) (o ++ [(cur, u)])) by (rewrite <- LM; apply live_In; split; [apply in_or_app; right; right; exact Iz|exact Dz]).
            assert (SL : StronglySorted B (map fst (o ++ [(cur, u)]))) by (rewrite <- LM; cbn in SOUT; inversion SOUT; assumption).
            rewrite map_app in SL. apply SS_app in SL. destruct SL as (_ & _ & SL). apply in_app_or in Io. destruct Io as [Io|[Io|[]]].
            -- assert (BC : B z cur) by (apply SL; [apply in_map_iff; exists (z, w); auto|left; reflexivity]). eapply (cb_irrefl d z z); [apply (keq_refl ok)|]. eapply cb_trans; eauto.
            -- injection Io as -> ->. eapply (cb_irrefl d z z); [apply (keq_refl ok)|]. exact BZ.
          * intros z w [[= <- <-]|I]; [apply cb_na; eauto|]. apply in_app_or in I. destruct I as [I|[[= <- <-]|[]]]; [|apply na_refl]. apply cb_na. apply Sab; [apply in_map_iff; exists (z, w); auto|left; reflexivity].
          * intros z w I. apply cb_na. rewrite Forall_forall in Fb. apply Fb. apply in_map_iff. exists (z, w). auto.
      - subst tl. assert (Ir' : In (cur, u) r) by (rewrite Er; apply in_or_app; right; left; reflexivity).
        split; [exists u; auto|]. split; [eapply wants_mono; eauto|]. split; [|auto].
        exists m, ((cur, u) :: tl'). split; [exact Er|]. split; [reflexivity|].
        rewrite Er in SR. cbn in SR. inversion SR as [|? ? S1 F1]; subst. rewrite map_app in S1. apply SS_app in S1. destruct S1 as (Sa & Sb & Sab). cbn in Sb, Sab. inversion Sb as [|? ? Sb1 Fb]; subst.
        split.
        + intros z w [[= <- <-]|I]; [apply cb_na; eauto|]. apply cb_na. apply Sab; [apply in_map_iff; exists (z, w); auto|left; reflexivity].
        + intros z w [[= <- <-]|I]; [apply na_refl|]. apply cb_na. rewrite Forall_forall in Fb. apply Fb. apply in_map_iff. exists (z, w). auto. }
    destruct CUR as ((u & Iu & Du) & Wc & (m' & tl' & Er' & LM & PRE & POST) & SHAPE).
    split; [|eauto]. split; [discriminate|]. split; [exact SOUT|]. split; [|split; [|split; [|split; [exact Wc|exists u; auto]]]].
    + intros z w I. destruct (INO z w I) as (I1 & I2 & I3). split; [exact I3|]. split; [auto|]. destruct I as [[= <- <-]|I]; [eapply PRE; left; reflexivity|]. rewrite <- LM in I. apply live_In in I. eapply PRE. right. apply I.
    + intros y Wy N. rewrite <- LM. eapply COV; eauto.
    + right. split; [reflexivity|]. exact SHAPE.
Qed.
End C.
