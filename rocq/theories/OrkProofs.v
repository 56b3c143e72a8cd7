(** The bound a node carries was read before any message above the node was sent. *)
From Verif Require Import Base Bytes FtModel FtSpec OrkModel FtSeg.
Open Scope nat_scope.

Section P.
Context {E : env} {X : Type} (n0 : X -> N).
Local Notation tree := (tree E).
Local Notation ent := (ent E).
Local Notation otree := (otree X).
Local Notation msns := (map (@e_msn E)).
Implicit Types (pm : list N) (t : tree) (o : otree) (v : X) (top : N).

Fixpoint okt top pm o t {struct o} : Prop :=
  match o with
  | ON v os =>
    (n0 v <= top)%N /\ (forall n, In n pm -> (n0 v < n <= top)%N) /\
    match t with
    | TLeaf _ => os = []
    | TNode _ _ ch =>
      (fix go (os : list otree) (l : list (list ent * tree)) : Prop :=
         match os, l with
         | [], [] => True
         | o :: os, x :: l => okt top (msns (fst x) ++ pm) o (snd x) /\ go os l
         | _, _ => False
         end) os (seg_list ch)
    end
  end.

Definition kid top pm o (x : list ent * tree) : Prop := okt top (msns (fst x) ++ pm) o (snd x).
Definition head top pm v : Prop := (n0 v <= top)%N /\ forall n, In n pm -> (n0 v < n <= top)%N.

Lemma okt_node top pm v os mx lk ch :
  okt top pm (ON v os) (TNode mx lk ch) <-> head top pm v /\ Forall2 (kid top pm) os (seg_list ch).
Proof.
  cbn [okt]. unfold head. generalize (seg_list ch) as l. intros l.
  assert (Q : (fix go (os : list otree) (l : list (list ent * tree)) : Prop :=
         match os, l with
         | [], [] => True
         | o :: os, x :: l => okt top (msns (fst x) ++ pm) o (snd x) /\ go os l
         | _, _ => False
         end) os l <-> Forall2 (kid top pm) os l).
  { revert l. induction os as [|o os IH]; intros [|x l]; split; intros K; try contradiction; try constructor; try (inversion K; subst; fail); auto.
    - apply K. - apply IH, K. - inversion K; subst; auto. - apply IH. inversion K; subst; auto. }
  rewrite Q. tauto.
Qed.
Lemma okt_leaf top pm v os l : okt top pm (ON v os) (TLeaf l) <-> head top pm v /\ os = [].
Proof. cbn [okt]. unfold head. tauto. Qed.
Lemma okt_head top pm o t : okt top pm o t -> head top pm (oval o).
Proof. destruct o as [v os]. cbn [okt oval]. unfold head. tauto. Qed.

Lemma otree_ind' (P : otree -> Prop) (H : forall v ch, Forall P ch -> P (ON v ch)) : forall o, P o.
Proof.
  fix IH 1. intros [v ch]. apply H. induction ch as [|c ch IHc]; constructor; auto.
Qed.

Lemma head_mono top top' pm pm' v : (top <= top')%N -> (forall n, In n pm' -> In n pm \/ (top < n <= top')%N) ->
  head top pm v -> head top' pm' v.
Proof.
  intros T S (H1 & H2). split; [lia|]. intros n I. destruct (S n I) as [I'|L]; [specialize (H2 n I')|]; lia.
Qed.
Lemma okt_mono o : forall top top' pm pm' t, (top <= top')%N -> (forall n, In n pm' -> In n pm \/ (top < n <= top')%N) ->
  okt top pm o t -> okt top' pm' o t.
Proof.
  induction o as [v ch IH] using otree_ind'. intros top top' pm pm' t T S.
  destruct t as [l|mx lk s]; [rewrite !okt_leaf|rewrite !okt_node]; intros (H & K); (split; [eapply head_mono; eauto|]); auto.
  generalize dependent (seg_list s). intros l K. induction K as [|o x os l Kx K IHK]; constructor.
  - inversion IH as [|? ? Ho Hos]; subst. eapply Ho; [exact T| |exact Kx]. intros n I. apply in_app_or in I. destruct I as [I|I]; [left; apply in_or_app; auto|].
    destruct (S n I); [left; apply in_or_app|]; auto.
  - apply IHK. inversion IH; auto.
Qed.
Lemma okt_sub top pm pm' o t : incl pm' pm -> okt top pm o t -> okt top pm' o t.
Proof. intros S. apply okt_mono; [lia|]. auto. Qed.
Lemma kid_mono top top' pm pm' o x : (top <= top')%N -> (forall n, In n pm' -> In n pm \/ (top < n <= top')%N) -> kid top pm o x -> kid top' pm' o x.
Proof.
  intros T S. apply okt_mono; auto. intros n I. apply in_app_or in I. destruct I as [I|I]; [left; apply in_or_app; auto|].
  destruct (S n I); [left; apply in_or_app|]; auto.
Qed.
Lemma kids_mono top top' pm pm' os l : (top <= top')%N -> (forall n, In n pm' -> In n pm \/ (top < n <= top')%N) ->
  Forall2 (kid top pm) os l -> Forall2 (kid top' pm') os l.
Proof. intros T S. induction 1; constructor; auto. eapply kid_mono; eauto. Qed.

(** ** Lists *)
Lemma repl_at {A} (f : A -> list A) l1 a l2 : repl (length l1) f (l1 ++ a :: l2) = l1 ++ f a ++ l2.
Proof. induction l1; cbn; congruence. Qed.
Lemma repl2_at {A} (f : A -> A -> list A) l1 a b l2 : repl2 (length l1) f (l1 ++ a :: b :: l2) = l1 ++ f a b ++ l2.
Proof. induction l1 as [|x l1 IH]; cbn [length app repl2]; auto. rewrite IH. destruct (l1 ++ a :: b :: l2); reflexivity. Qed.

Lemma seg_upd_list {C R} f : forall (s : seg C) lo hi i s' (r : R), seg_upd lo hi i f s = Ok (s', r) ->
  exists l1 a l2 lo' hi' sa, seg_list s = l1 ++ a :: l2 /\ length l1 = i /\ f lo' hi' a = Ok (sa, r) /\ seg_list s' = l1 ++ seg_list sa ++ l2.
Proof.
  induction s as [a|a p s IH]; intros lo hi [|i] s' r U; cbn [seg_upd] in U; try discriminate.
  - exists [], a, [], lo, hi, s'. rewrite app_nil_r. auto.
  - destruct (f lo (Some p) a) as [[sa r']| |] eqn:F; try discriminate. injection U as <- <-.
    exists [], a, (seg_list s), lo, (Some p), sa. rewrite seg_list_app. auto.
  - destruct (seg_upd (Some p) hi i f s) as [[s1 r']| |] eqn:F; try discriminate. injection U as <- <-.
    destruct (IH _ _ _ _ _ F) as (l1 & b & l2 & lo' & hi' & sa & E1 & E2 & E3 & E4). exists (a :: l1), b, l2, lo', hi', sa. cbn. rewrite E1, E4. auto.
Qed.
Lemma seg_upd2_list {C} f : forall (s : seg C) lo hi i s', seg_upd2 lo hi i f s = Ok s' ->
  exists l1 a b l2 lo' hi' p sa, seg_list s = l1 ++ a :: b :: l2 /\ length l1 = i /\ f lo' hi' a p b = Ok sa /\ seg_list s' = l1 ++ seg_list sa ++ l2.
Proof.
  induction s as [a|a p s IH]; intros lo hi i s' U; [destruct i; discriminate|].
  destruct i as [|i].
  - destruct s as [b|b q s].
    + exists [], a, b, [], lo, hi, p, s'. rewrite app_nil_r. auto.
    + cbn in U. destruct (f lo (Some q) a p b) as [sa| |] eqn:F; try discriminate. injection U as <-.
      exists [], a, b, (seg_list s), lo, (Some q), p, sa. rewrite seg_list_app. auto.
  - assert (U' : (rdo s1 <- seg_upd2 (Some p) hi i f s; Ok (Cons a p s1)) = Ok s') by (destruct s; exact U).
    destruct (seg_upd2 (Some p) hi i f s) as [s1| |] eqn:F; try discriminate. injection U' as <-.
    destruct (IH _ _ _ _ F) as (l1 & x & y & l2 & lo' & hi' & q & sa & E1 & E2 & E3 & E4). exists (a :: l1), x, y, l2, lo', hi', q, sa. cbn. rewrite E1, E4. auto.
Qed.
Lemma seg_cut_list {C} : forall (s : seg C) n s1 k s2, seg_cut n s = Ok (s1, k, s2) -> firstn n (seg_list s) = seg_list s1 /\ skipn n (seg_list s) = seg_list s2.
Proof.
  induction s as [a|a p s IH]; intros [|n] s1 k s2 U; cbn [seg_cut] in U; try discriminate.
  destruct n as [|n]; [injection U as <- <- <-; auto|].
  assert (U' : (rdo (s1, k, s2) <- seg_cut (S n) s; Ok (Cons a p s1, k, s2)) = Ok (s1, k, s2)) by (destruct s; exact U).
  destruct (seg_cut (S n) s) as [[[u1 q] u2]| |] eqn:F; try discriminate. injection U' as <- <- <-.
  destruct (IH _ _ _ _ F) as (E1 & E2). change (firstn (S (S n)) (seg_list (Cons a p s))) with (a :: firstn (S n) (seg_list s)).
  change (skipn (S (S n)) (seg_list (Cons a p s))) with (skipn (S n) (seg_list s)). rewrite E1, E2. auto.
Qed.

Lemma F2_len {A B} (R : A -> B -> Prop) l l' : Forall2 R l l' -> length l = length l'.
Proof. induction 1; cbn; congruence. Qed.
Lemma F2_mid {A B} (R : A -> B -> Prop) os l1 x l2 : Forall2 R os (l1 ++ x :: l2) ->
  exists (o1 : list A) (o : A) (o2 : list A), os = o1 ++ o :: o2 /\ length o1 = length l1 /\ Forall2 R o1 l1 /\ R o x /\ Forall2 R o2 l2.
Proof.
  intros F. apply Forall2_app_inv_r in F. destruct F as (o1 & o' & F1 & F2 & ->). inversion F2; subst. eexists _, _, _. split; [reflexivity|]. split; [eapply F2_len; eauto|]. auto.
Qed.
Lemma F2_nth {A B} (R : A -> B -> Prop) os l i x : Forall2 R os l -> nth_error l i = Some x -> exists o : A, nth_error os i = Some o /\ R o x.
Proof.
  intros F. revert i. induction F as [|o y os l K F IH]; intros [|i] N1; cbn in *; try discriminate.
  - injection N1 as ->. eauto.
  - eauto.
Qed.

(** ** The nodes of the two trees *)
Lemma okt_at top path : forall pm pend o t pend' t', msns pend = pm -> okt top pm o t -> node_at path pend t = Some (pend', t') ->
  exists o', onode path o = Some o' /\ okt top (msns pend') o' t'.
Proof.
  induction path as [|i path IH]; intros pm pend o t pend' t' EP K N1; cbn [node_at onode] in *.
  - injection N1 as <- <-. subst. eauto.
  - destruct t as [l|mx lk ch]; [discriminate|]. destruct o as [v os]. apply okt_node in K. destruct K as (_ & K).
    destruct (nth_error (seg_list ch) i) as [x|] eqn:Nx; [|discriminate]. destruct (F2_nth _ _ _ _ _ K Nx) as (o & No & Ko).
    cbn [okids]. rewrite No. eapply IH; [|exact Ko|exact N1]. rewrite map_app, EP. reflexivity.
Qed.

Lemma at_path_okt top path f F : forall lo hi pend o t t',
  (forall lo hi pend' tn o t', node_at path pend t = Some (pend', tn) -> okt top (msns pend') o tn -> f lo hi pend' tn = Ok t' -> okt top (msns pend') (F o) t') ->
  okt top (msns pend) o t -> at_path path f lo hi pend t = Ok t' -> okt top (msns pend) (oat path F o) t'.
Proof.
  induction path as [|i path IH]; intros lo hi pend o t t' G K A; cbn [at_path oat] in *.
  - eapply G; eauto. reflexivity.
  - destruct t as [l|mx lk ch]; [discriminate|]. destruct o as [v os]. pose proof K as K0. apply okt_node in K. destruct K as (H & K).
    match type of A with context [seg_upd lo hi i ?f0 ch] => destruct (seg_upd lo hi i f0 ch) as [[ch' r]| |] eqn:U; try discriminate end.
    injection A as <-. destruct (seg_upd_list _ _ _ _ _ _ _ U) as (l1 & x & l2 & lo' & hi' & sa & E1 & E2 & E3 & E4).
    destruct (at_path path f lo' hi' (fst x ++ pend) (snd x)) as [tx| |] eqn:AX; try discriminate. injection E3 as <- <-.
    rewrite E1 in K. destruct (F2_mid _ _ _ _ _ K) as (o1 & ox & o2 & -> & EL & K1 & Kx & K2).
    apply okt_node. split; [exact H|]. cbn [okids oval]. rewrite E4, <- E2, <- EL, repl_at. cbn [seg_list app].
    apply Forall2_app; [exact K1|]. constructor; [|exact K2]. unfold kid. cbn [fst snd]. rewrite <- map_app.
    eapply IH; [|rewrite map_app; exact Kx|exact AX]. intros lo2 hi2 pend' tn o t' N1. apply G. cbn [node_at]. rewrite E1, nth_error_app2, E2, Nat.sub_diag by lia. exact N1.
Qed.

(** ** What does not move messages *)
Lemma okt_like_leaf top pm o l l' : okt top pm o (TLeaf l) -> okt top pm o (TLeaf l').
Proof. destruct o. rewrite !okt_leaf. auto. Qed.
Lemma okt_lock top pm o lk t : okt top pm o t -> okt top pm o (set_lock lk t).
Proof. destruct t as [l|mx lk0 ch]; cbn [set_lock]; auto. destruct o. rewrite !okt_node. auto. Qed.
Lemma okt_fetch top pm o t : okt top pm o t -> okt top pm o (fetch_all t).
Proof. destruct t; cbn [fetch_all]; auto. apply okt_like_leaf. Qed.
Lemma okt_pin top pm o lk mx t : okt top pm o t -> okt top pm o (set_dirty (pin_child lk mx t)).
Proof.
  intros K. unfold pin_child. destruct t as [l|m2 lk2 ch]; [|destruct lk; exact K].
  destruct lk; cbn [destroy_blbs fetch_all set_dirty]; try (eapply okt_like_leaf; exact K).
  destruct ((1 <? length (seg_list (l_parts l))) && negb (l_dirty l)); cbn [fetch_all set_dirty]; eapply okt_like_leaf; exact K.
Qed.
Lemma okt_dirty top pm o t : okt top pm o t -> okt top pm o (set_dirty t).
Proof. destruct t; cbn [set_dirty]; auto. apply okt_like_leaf. Qed.

(** ** Messages put into a node *)
Definition more (ns : list N) (x y : list ent * tree) : Prop :=
  snd y = snd x /\ incl (msns (fst y)) (msns (fst x) ++ ns).
Definition grown (ns : list N) (t t' : tree) : Prop :=
  match t, t' with
  | TLeaf _, TLeaf _ => True
  | TNode _ _ ch, TNode _ _ ch' => Forall2 (more ns) (seg_list ch) (seg_list ch')
  | _, _ => False
  end.
Lemma more_refl ns x : more ns x x.
Proof. split; [reflexivity|]. intros n I. apply in_or_app. auto. Qed.
Lemma more_ins n m tg x : more [n] x (ins n m tg x).
Proof. split; [reflexivity|]. cbn [ins fst]. rewrite map_app. intros k I. exact I. Qed.
Lemma F2_refl {A} (R : A -> A -> Prop) l : (forall x, R x x) -> Forall2 R l l.
Proof. intros K. induction l; constructor; auto. Qed.
Lemma node_put_grown g n m tg t t' : node_put g n m tg t = Ok t' -> grown [n] t t'.
Proof.
  destruct t as [l|mx lk ch]; cbn [node_put].
  - destruct (leaf_put g n m l); try discriminate. intros Q. injection Q as <-. exact Logic.I.
  - destruct (mx <? n)%N; [|discriminate]. destruct (once m).
    + destruct (PivotModel.which_child (kcmp E) (seg_pivots ch) (m_key m)) as [i|]; cbn [must]; [|discriminate].
      match goal with |- context [seg_upd None None i ?f ch] => destruct (seg_upd None None i f ch) as [[ch' r]| |] eqn:U; try discriminate end.
      intros Q. injection Q as <-. destruct (seg_upd_list _ _ _ _ _ _ _ U) as (l1 & x & l2 & lo' & hi' & sa & E1 & E2 & E3 & E4).
      injection E3 as <- <-. cbn [grown]. rewrite E1, E4. apply Forall2_app; [apply F2_refl, more_refl|]. cbn [seg_list app].
      constructor; [apply more_ins|apply F2_refl, more_refl].
    + intros Q. injection Q as <-. cbn [grown]. rewrite seg_list_map. induction (seg_list ch); cbn; constructor; auto. apply more_ins.
Qed.
Lemma grown_refl t : grown [] t t.
Proof. destruct t; cbn [grown]; [exact Logic.I|]. apply F2_refl, more_refl. Qed.
Lemma grown_trans n ns t t1 t2 : grown [n] t t1 -> grown ns t1 t2 -> grown (n :: ns) t t2.
Proof.
  destruct t as [l|mx lk ch], t1 as [l1|mx1 lk1 ch1], t2 as [l2|mx2 lk2 ch2]; cbn [grown]; auto; try contradiction.
  intros F. generalize dependent (seg_list ch2). induction F as [|x y l1 l2 M F IH]; intros l3 F'; inversion F'; subst; constructor; auto.
  destruct M as (M1 & M2). match goal with K : more ns y _ |- _ => destruct K as (M3 & M4) end. split; [congruence|].
  intros k I. specialize (M4 k I). apply in_app_or in M4. destruct M4 as [M4|M4].
  - specialize (M2 k M4). apply in_app_or in M2. apply in_or_app. destruct M2 as [|[->|[]]]; [auto|]. right. left. reflexivity.
  - apply in_or_app. right. right. exact M4.
Qed.
Lemma put_all_grown g es : forall t t', put_all g es t = Ok t' -> grown (msns es) t t'.
Proof.
  induction es as [|e es IH]; intros t t'; cbn [put_all map].
  - intros Q. injection Q as <-. apply grown_refl.
  - destruct (node_put g (e_msn e) (e_msg e) (e_tag e) t) as [t1| |] eqn:P; try discriminate. intros Q.
    eapply grown_trans; [eapply node_put_grown; exact P|auto].
Qed.

(** Flushed messages: below the node nothing changes but the place they wait at. *)
Lemma okt_grown top ns pm o v t t' : okt top (ns ++ pm) o t -> head top pm v -> grown ns t t' -> okt top pm (oset v o) t'.
Proof.
  destruct o as [w os]. unfold oset. cbn [okids]. destruct t as [l|mx lk ch], t' as [l'|mx' lk' ch']; cbn [grown]; try contradiction.
  - rewrite !okt_leaf. tauto.
  - rewrite !okt_node. intros (_ & K) H F. split; [exact H|]. revert os K. induction F as [|x y l1 l2 (M1 & M2) F IH]; intros os K; inversion K; subst; constructor; auto.
    unfold kid in *. rewrite M1. eapply okt_sub; [|eassumption]. intros n I. apply in_app_or in I. rewrite !in_app_iff. destruct I as [I|I]; auto.
    apply M2 in I. apply in_app_or in I. tauto.
Qed.

(** ** The actions *)
Lemma flush_okt top g i lo hi pend mx lk ch x o t' : okt top (msns pend) o (TNode mx lk ch) -> nth_error (seg_list ch) i = Some x ->
  flush_child g i lo hi (TNode mx lk ch) = Ok t' ->
  okt top (msns pend) (oflush i (negb (is_nil (fst x)) || is_leaf (snd x)) o) t'.
Proof.
  intros K Nx A. destruct o as [v os]. apply okt_node in K. destruct K as (H & K). cbn [flush_child] in A.
  destruct (negb (free lk)); [|discriminate].
  match type of A with context [seg_upd lo hi i ?f0 ch] => destruct (seg_upd lo hi i f0 ch) as [[ch' r]| |] eqn:U; try discriminate end.
  injection A as <-. destruct (seg_upd_list _ _ _ _ _ _ _ U) as (l1 & y & l2 & lo' & hi' & sa & E1 & E2 & E3 & E4).
  rewrite E1, nth_error_app2, E2, Nat.sub_diag in Nx by lia. injection Nx as ->.
  destruct (free (lock_of (snd x))); [|discriminate].
  destruct (put_all g (fst x) (set_dirty (pin_child lk mx (snd x)))) as [tx| |] eqn:PA; try discriminate. injection E3 as <- <-.
  rewrite E1 in K. destruct (F2_mid _ _ _ _ _ K) as (o1 & ox & o2 & -> & EL & K1 & Kx & K2).
  unfold oflush. cbn [oval okids]. apply okt_node. split; [exact H|]. rewrite E4, <- E2, <- EL, repl_at. cbn [seg_list app].
  apply Forall2_app; [exact K1|]. constructor; [|exact K2]. unfold kid in *. cbn [fst snd map app]. apply okt_lock.
  apply put_all_grown in PA. pose proof (okt_pin _ _ _ lk mx _ Kx) as KP.
  destruct (negb (is_nil (fst x)) || is_leaf (snd x)) eqn:GO.
  - eapply okt_grown; eauto.
  - apply orb_false_elim in GO. destruct GO as (GO & _). destruct (fst x) as [|e es]; [|discriminate GO]. cbn [map app] in *.
    replace ox with (oset (oval ox) ox) by (destruct ox; reflexivity). eapply (okt_grown _ []); [exact KP|eapply okt_head; exact KP|exact PA].
Qed.

Lemma F2_firstn {A B} (R : A -> B -> Prop) l l' n : Forall2 R l l' -> Forall2 R (firstn n l) (firstn n l').
Proof. intros F. revert n. induction F; intros [|n]; cbn; constructor; auto. Qed.
Lemma F2_skipn {A B} (R : A -> B -> Prop) l l' n : Forall2 R l l' -> Forall2 R (skipn n l) (skipn n l').
Proof. intros F. revert n. induction F; intros [|n]; cbn; auto; constructor; auto. Qed.

Lemma split_node_okt top pm o t w t1 k t2 : okt top pm o t -> split_node w t = Ok (t1, k, t2) ->
  let n := Nat.div2 (length (okids o)) in
  okt top pm (ON (oval o) (firstn n (okids o))) t1 /\ okt top pm (ON (oval o) (skipn n (okids o))) t2.
Proof.
  intros K A n. destruct o as [v os]. destruct t as [l|mx lk ch]; cbn [split_node] in A.
  - destruct (leaf_split w (l_parts l)) as [[[s1 q] s2]| |]; try discriminate. injection A as <- <- <-.
    apply okt_leaf in K. destruct K as (H & ->). split; apply okt_leaf; auto.
  - apply okt_node in K. destruct K as (H & K).
    destruct (seg_cut (Nat.div2 (length (seg_list ch))) ch) as [[[s1 q] s2]| |] eqn:C; try discriminate. injection A as <- <- <-.
    apply seg_cut_list in C. destruct C as (C1 & C2). cbn [oval okids] in *. unfold n. rewrite (F2_len _ _ _ K).
    split; apply okt_node; (split; [exact H|]); [rewrite <- C1; apply F2_firstn|rewrite <- C2; apply F2_skipn]; exact K.
Qed.

Lemma split_okt top i w lo hi pend t o t' : okt top (msns pend) o t -> split_child i w lo hi t = Ok t' -> okt top (msns pend) (osplit i o) t'.
Proof.
  intros K A. destruct t as [l|mx lk ch]; [discriminate|]. destruct o as [v os]. apply okt_node in K. destruct K as (H & K). cbn [split_child] in A.
  destruct (negb (free lk)); [|discriminate].
  match type of A with context [seg_upd lo hi i ?f0 ch] => destruct (seg_upd lo hi i f0 ch) as [[ch' r]| |] eqn:U; try discriminate end.
  injection A as <-. destruct (seg_upd_list _ _ _ _ _ _ _ U) as (l1 & x & l2 & lo' & hi' & sa & E1 & E2 & E3 & E4).
  destruct (is_nil (fst x) && mode_ok w lk lo' hi') eqn:NL; [|discriminate]. apply andb_prop in NL. destruct NL as (NL & _).
  destruct (split_node w (set_dirty (pin_child lk mx (snd x)))) as [[[t1 q] t2]| |] eqn:SN; try discriminate. injection E3 as <- <-.
  rewrite E1 in K. destruct (F2_mid _ _ _ _ _ K) as (o1 & ox & o2 & -> & EL & K1 & Kx & K2). unfold kid in Kx.
  destruct (fst x); [|discriminate NL]. destruct (split_node_okt _ _ _ _ _ _ _ _ (okt_pin _ _ _ lk mx _ Kx) SN) as (S1 & S2).
  unfold osplit. cbn [oval okids]. apply okt_node. split; [exact H|]. rewrite E4, <- E2, <- EL, repl_at. cbn [seg_list app].
  apply Forall2_app; [exact K1|]. constructor; [exact S1|]. constructor; [exact S2|exact K2].
Qed.

Lemma flush_some_okt top g pm v x tx ox : head top pm v -> kid top pm ox x -> flush_some g (fst x) (fetch_all (snd x)) = Ok tx ->
  okt top pm (if negb (is_nil (fst x)) then oset v ox else ox) tx /\ is_leaf tx = is_leaf (snd x).
Proof.
  intros H K. unfold flush_some, kid in *. destruct (fst x) as [|e es] eqn:EB; cbn [is_nil negb].
  - intros Q. injection Q as <-. split; [apply okt_fetch; exact K|destruct (snd x); reflexivity].
  - intros PA. apply put_all_grown in PA. split.
    + eapply okt_grown; [|exact H|exact PA]. apply okt_dirty, okt_fetch. exact K.
    + destruct (snd x), tx; cbn in *; auto; contradiction.
Qed.
Lemma merge_okt top g g' i w lo hi pend mx lk ch a b o t' : okt top (msns pend) o (TNode mx lk ch) ->
  nth_error (seg_list ch) i = Some a -> nth_error (seg_list ch) (S i) = Some b ->
  merge_children g g' i w lo hi (TNode mx lk ch) = Ok t' ->
  okt top (msns pend) (omerge i w (negb (is_nil (fst a))) (negb (is_nil (fst b))) (is_leaf (snd a)) o) t'.
Proof.
  intros K Na Nb A. destruct o as [v os]. apply okt_node in K. destruct K as (H & K). cbn [merge_children] in A.
  destruct (negb (free lk)); [|discriminate].
  match type of A with context [seg_upd2 lo hi i ?f0 ch] => destruct (seg_upd2 lo hi i f0 ch) as [ch'| |] eqn:U; try discriminate end.
  injection A as <-. destruct (seg_upd2_list _ _ _ _ _ _ U) as (l1 & a' & b' & l2 & lo' & hi' & p & sa & E1 & E2 & E3 & E4).
  rewrite E1, nth_error_app2, E2, Nat.sub_diag in Na by lia. injection Na as ->.
  rewrite E1, nth_error_app2 in Nb by lia. replace (S i - length l1) with 1 in Nb by lia. injection Nb as ->.
  match type of E3 with (when ?c; _) = _ => destruct c; [|discriminate] end.
  destruct (flush_some g (fst a) (fetch_all (snd a))) as [ta| |] eqn:Fa; try discriminate.
  destruct (flush_some g' (fst b) (fetch_all (snd b))) as [tb| |] eqn:Fb; try discriminate.
  rewrite E1 in K. destruct (F2_mid _ _ _ _ _ K) as (o1 & oa & o2' & -> & EL & K1 & Ka & K2'). inversion K2' as [|ob ? o2 ? Kb K2]; subst. clear K2'.
  destruct (flush_some_okt _ _ _ _ _ _ _ H Ka Fa) as (Qa & La). destruct (flush_some_okt _ _ _ _ _ _ _ H Kb Fb) as (Qb & Lb).
  unfold omerge. cbn [oval okids]. apply okt_node. split; [exact H|]. rewrite E4, <- EL, repl2_at.
  set (xa := if negb (is_nil (fst a)) then oset v oa else oa) in *. set (xb := if negb (is_nil (fst b)) then oset v ob else ob) in *.
  apply Forall2_app; [exact K1|]. apply Forall2_app; [|exact K2]. clear U E1 E4 K K1 K2 Ka Kb Fa Fb. rewrite <- La.
  destruct xa as [va ca], xb as [vb cb]. unfold merge_nodes in E3.
  destruct ta as [la|ma lka sga], tb as [lb|mb lkb sgb]; cbn [is_leaf] in *; try discriminate.
  - pose proof (proj1 (okt_leaf _ _ _ _ _) Qa) as (Ha & ->). pose proof (proj1 (okt_leaf _ _ _ _ _) Qb) as (Hb & ->). destruct w.
    + injection E3 as <-. constructor; [exact Qa|]. constructor; [exact Qb|constructor].
    + destruct (leaf_join (l_parts la) (l_parts lb)); try discriminate. injection E3 as <-. constructor; [|constructor]. unfold kid. cbn [fst snd map app]. apply okt_leaf. auto.
    + match type of E3 with (when ?c; _) = _ => destruct c; [|discriminate] end. destruct (leaf_join (l_parts la) (l_parts lb)) as [s| |]; try discriminate.
      destruct (leaf_split (SEvenly i j) s) as [[[s1 q] s2]| |]; try discriminate. injection E3 as <-. unfold oset. cbn [oval okids].
      constructor; [apply okt_leaf; auto|]. constructor; [apply okt_leaf; auto|constructor].
  - injection E3 as <-. pose proof (proj1 (okt_node _ _ _ _ _ _ _) Qa) as (Ha & Fa). pose proof (proj1 (okt_node _ _ _ _ _ _ _) Qb) as (Hb & Fb).
    constructor; [|constructor]. unfold kid. cbn [fst snd map app oval okids]. apply okt_node. split; [exact Ha|]. rewrite seg_list_app. apply Forall2_app; auto.
Qed.

(** ** Query *)
Definition amsns (an : ancs E) : list (list N) := map (fun x => msns (snd x)) an.
Lemma map_mark lo hi (buf : list ent) : msns (map (mark lo hi) buf) = msns buf.
Proof. rewrite map_map. apply map_ext. intros e. unfold mark. destruct (fresh_in lo hi e); reflexivity. Qed.
Lemma bnc_apply_msns g lo hi buf b : msns (snd (bnc_apply g lo hi buf b)) = msns buf.
Proof.
  unfold bnc_apply. destruct (_ || _); [apply map_mark|]. destruct (is_nil _); [apply map_mark|reflexivity].
Qed.
Lemma anc_apply_msns g lo hi an : forall b, amsns (snd (anc_apply g lo hi an b)) = amsns an.
Proof.
  induction an as [|[mx buf] an IH]; intros b; [reflexivity|]. cbn [anc_apply]. destruct (b_max b <? mx)%N.
  - destruct (bnc_apply g lo hi buf b) as [r buf'] eqn:Q. pose proof (bnc_apply_msns g lo hi buf b) as QM. rewrite Q in QM. cbn [snd] in QM.
    specialize (IH (Bn r mx (b_flag b))). destruct (anc_apply g lo hi an (Bn r mx (b_flag b))) as [b' an']. unfold amsns in *. cbn [map snd] in *. congruence.
  - specialize (IH b). destruct (anc_apply g lo hi an b) as [b' an']. unfold amsns in *. cbn [map snd] in *. congruence.
Qed.
Lemma slot_apply_msns g lo hi an s : amsns (snd (slot_apply g lo hi an s)) = amsns an.
Proof.
  unfold slot_apply. destruct (s_mem s) as [b|]; [|reflexivity]. pose proof (anc_apply_msns g lo hi an b). destruct (anc_apply g lo hi an b). exact H.
Qed.
Lemma apply_every_msns g s : forall lo hi an, amsns (snd (apply_every g lo hi an s)) = amsns an.
Proof.
  induction s as [a|a p s IH]; intros lo hi an; cbn [apply_every].
  - pose proof (slot_apply_msns g lo hi an a). destruct (slot_apply g lo hi an a). exact H.
  - pose proof (slot_apply_msns g lo (Some p) an a) as K. destruct (slot_apply g lo (Some p) an a) as [a' an1]. cbn [snd] in K.
    specialize (IH (Some p) hi an1). destruct (apply_every g (Some p) hi an1 s) as [s' an2]. cbn [snd] in *. congruence.
Qed.
Lemma leaf_pin_msns {R} g i (look : bound -> bound -> rows E -> R) lo hi an l l' an' r :
  leaf_pin g i look lo hi an l = Ok (l', an', r) -> amsns an' = amsns an.
Proof.
  unfold leaf_pin. match goal with |- context [seg_upd lo hi i ?f ?s] => destruct (seg_upd lo hi i f s) as [[ps ?]| |]; try discriminate end.
  destruct (l_dirty l).
  - destruct (if needs_every lo hi an ps then apply_every g lo hi an ps else (ps, an)) as [ps' an1] eqn:Q.
    match goal with |- context [seg_upd lo hi i ?f ?s] => destruct (seg_upd lo hi i f s) as [[? ?]| |]; try discriminate end.
    intros K. injection K as _ <- _. destruct (needs_every lo hi an ps); [|injection Q as _ <-; reflexivity].
    pose proof (apply_every_msns g ps lo hi an) as AM. rewrite Q in AM. exact AM.
  - match goal with |- context [seg_upd lo hi i ?f ?s] => destruct (seg_upd lo hi i f s) as [[ps' [an1 r1]]| |] eqn:U; try discriminate end.
    intros K. injection K as _ <- _. destruct (seg_upd_list _ _ _ _ _ _ _ U) as (l1 & x & l2 & lo' & hi' & sa & _ & _ & E3 & _).
    destruct (s_mem x) as [b|]; [|discriminate]. destruct (bn_needs lo' hi' an b 0) as [n|].
    + injection E3 as _ <- _. reflexivity.
    + pose proof (anc_apply_msns g lo' hi' an b) as AM. destruct (anc_apply g lo' hi' an b) as [b' an2]. injection E3 as _ <- _. exact AM.
Qed.
Lemma query_okt g k h : forall lo hi an t t' an' r, query h g k lo hi an t = Ok (t', an', r) ->
  amsns an' = amsns an /\ forall top pm o, okt top pm o t -> okt top pm o t'.
Proof.
  induction h as [|h IH]; intros lo hi an [l|mx lk ch] t' an' r; cbn [query]; try discriminate.
  1,2: unfold leaf_query; destruct (PivotModel.which_child (kcmp E) (seg_pivots (l_parts l)) k) as [i|]; cbn [must]; [|discriminate];
    destruct (leaf_pin g i (fun _ _ => rows_find k) lo hi an l) as [[[l' an1] r1]| |] eqn:P; try discriminate; intros Q; injection Q as <- <- _;
    split; [eapply leaf_pin_msns; exact P|intros top pm o; apply okt_like_leaf].
  destruct (free lk); [|discriminate]. destruct (PivotModel.which_child (kcmp E) (seg_pivots ch) k) as [i|]; cbn [must]; [|discriminate].
  match goal with |- context [seg_upd lo hi i ?f ?s] => destruct (seg_upd lo hi i f s) as [[ch' [an1 r1]]| |] eqn:U; try discriminate end.
  intros Q. injection Q as <- <- _. destruct (seg_upd_list _ _ _ _ _ _ _ U) as (l1 & x & l2 & lo' & hi' & sa & E1 & E2 & E3 & E4).
  destruct (query h g k lo' hi' ((mx, fst x) :: an) (snd x)) as [[[tx an2] rx]| |] eqn:QX; try discriminate.
  destruct (IH _ _ _ _ _ _ _ QX) as (I1 & I2). destruct an2 as [|[mx2 buf2] an3]; [discriminate|]. injection E3 as <- <- _.
  unfold amsns in *. cbn [map snd] in I1. injection I1 as I1 I3. split; [exact I3|].
  intros top pm [v os]. rewrite !okt_node. intros (H & K). split; [exact H|]. rewrite E1 in K. rewrite E4.
  destruct (F2_mid _ _ _ _ _ K) as (o1 & ox & o2 & -> & EL & K1 & Kx & K2). apply Forall2_app; [exact K1|]. cbn [seg_list app].
  constructor; [|exact K2]. unfold kid in *. cbn [fst snd]. rewrite I1. apply I2. exact Kx.
Qed.

(** ** Injection *)
Lemma inject_okt top g m keep newer path : (forall v, (n0 v <= top)%N -> (n0 (newer v) <= top)%N) ->
  forall t o t', okt top [] o t -> inject g (top + 1) m keep path t = Ok t' ->
  okt (top + 1) [] (oat path (fun c => oset (newer (oval c)) c) o) t'.
Proof.
  intros NW. induction path as [|i path IH]; intros t o t' K A; cbn [inject oat] in *.
  - destruct (free (lock_of t)); [|discriminate]. destruct (node_put g (top + 1) m Fresh (fetch_all t)) as [t1| |] eqn:NP; try discriminate. injection A as <-.
    assert (Q : okt (top + 1) [] (oset (newer (oval o)) o) t1).
    { apply node_put_grown in NP. eapply okt_grown with (ns := [(top + 1)%N]); [|split; [|intros n []]|exact NP].
      - apply okt_fetch. eapply okt_mono; [|
          |exact K]; [lia|]. cbn [app]. intros n [<-|[]]. right. lia.
      - apply okt_head in K. destruct K as (K & _). apply NW in K. lia. }
    destruct keep; [apply okt_lock|]; exact Q.
  - destruct t as [l|mx lk ch]; [discriminate|]. destruct (free lk && once m); [|discriminate].
    destruct (PivotModel.which_child (kcmp E) (seg_pivots ch) (m_key m)) as [j|]; cbn [must] in A; [|discriminate]. destruct (i =? j); [|discriminate].
    match type of A with context [seg_upd None None i ?f0 ch] => destruct (seg_upd None None i f0 ch) as [[ch' r]| |] eqn:U; try discriminate end.
    injection A as <-. destruct (seg_upd_list _ _ _ _ _ _ _ U) as (l1 & x & l2 & lo' & hi' & sa & E1 & E2 & E3 & E4).
    destruct (is_nil (fst x)) eqn:NL; [|discriminate]. destruct (inject g (top + 1) m keep path (snd x)) as [tx| |] eqn:IX; try discriminate. injection E3 as <- <-.
    destruct o as [v os]. apply okt_node in K. destruct K as (H & K). rewrite E1 in K. destruct (F2_mid _ _ _ _ _ K) as (o1 & ox & o2 & -> & EL & K1 & Kx & K2).
    cbn [oval okids]. apply okt_node. split; [eapply head_mono; [| |exact H]; [lia|intros n []]|]. rewrite E4, <- E2, <- EL, repl_at. cbn [seg_list app].
    assert (MM : forall n, In n [] -> In n [] \/ (top < n <= top + 1)%N) by intuition.
    apply Forall2_app; [eapply kids_mono; [|exact MM|exact K1]; lia|]. constructor; [|eapply kids_mono; [|exact MM|exact K2]; lia].
    unfold kid in *. cbn [fst snd]. destruct (fst x); [|discriminate NL]. cbn [map app] in *. eapply IH; eauto.
Qed.

(** ** Every step *)
Lemma step_okt none newer a s s' r o :
  (n0 none <= s_top s)%N -> (forall v, (n0 v <= s_top s)%N -> (n0 (newer v) <= s_top s)%N) ->
  okt (s_top s) [] o (s_tree s) -> step a s = Ok (s', r) ->
  okt (s_top s') [] (ostep none newer a (s_tree s) o) (s_tree s').
Proof.
  intros NN NW K ST. 
  assert (LOC : forall p f F, (forall lo hi pend' tn o t', node_at p [] (s_tree s) = Some (pend', tn) -> okt (s_top s) (msns pend') o tn -> f lo hi pend' tn = Ok t' -> okt (s_top s) (msns pend') (F o) t') ->
    local s (at_path p f None None [] (s_tree s)) = Ok (s', r) -> okt (s_top s') [] (oat p F o) (s_tree s')).
  { intros p f F G A. unfold local in A. destruct (at_path p f None None [] (s_tree s)) as [t'| |] eqn:AP; try discriminate. injection A as <- <-. cbn [s_top s_tree].
    apply (at_path_okt (s_top s) p f F None None [] o (s_tree s)); auto. }
  assert (ID : forall p (o : otree) , oat p (fun o => o) o = o).
  { clear. induction p as [|i p IH]; intros [v os]; [reflexivity|]. cbn [oat oval okids]. f_equal. revert i. induction os as [|c os IHo]; intros [|i]; cbn [repl]; auto; [rewrite IH; reflexivity|f_equal; auto]. }
  assert (LOC0 : forall p f, (forall lo hi pend' tn o t', okt (s_top s) (msns pend') o tn -> f lo hi pend' tn = Ok t' -> okt (s_top s) (msns pend') o t') ->
    local s (at_path p f None None [] (s_tree s)) = Ok (s', r) -> okt (s_top s') [] o (s_tree s')).
  { intros p f G A. rewrite <- (ID p o). eapply LOC; [|exact A]. intros lo hi pend' tn o' t' _. apply G. }
  destruct a; cbn [step ostep] in *.
  - destruct (inject g (s_top s + 1) m keep path (s_tree s)) as [t'| |] eqn:IJ; try discriminate. injection ST as <- <-. cbn [s_top s_tree]. eapply inject_okt; eauto.
  - destruct (query (height (s_tree s)) g k None None [] (s_tree s)) as [[[t' an] v]| |] eqn:Q; try discriminate. injection ST as <- <-. cbn [s_top s_tree].
    eapply query_okt; eauto.
  - eapply LOC0; [|exact ST]. intros lo hi pend' tn o' t' K' A. cbn beta in A. unfold lock_chain in A. destruct (_ && _); [|discriminate]. injection A as <-. apply okt_lock. exact K'.
  - eapply LOC0; [|exact ST]. intros lo hi pend' tn o' t' K' A. cbn beta in A. unfold lock_cleaner in A. destruct (_ && _); [|discriminate]. injection A as <-. apply okt_lock. exact K'.
  - eapply LOC0; [|exact ST]. intros lo hi pend' tn o' t' K' A. cbn beta in A. unfold unlock in A. destruct (negb _); [|discriminate]. injection A as <-. apply okt_lock. exact K'.
  - eapply LOC; [|exact ST]. intros lo hi pend' tn o' t' N1 K' A. cbn beta in A. destruct tn as [l|mx lk ch]; [discriminate|].
    unfold child_at. rewrite N1. destruct (nth_error (seg_list ch) i) as [x|] eqn:Nx.
    + cbn [has_msgs at_leaf]. destruct x as [buf tx]. eapply (flush_okt _ _ _ _ _ _ _ _ _ (buf, tx)); eauto.
    + exfalso. cbn [flush_child] in A. destruct (negb (free lk)); [|discriminate].
      match type of A with context [seg_upd lo hi i ?f0 ch] => destruct (seg_upd lo hi i f0 ch) as [[ch' r']| |] eqn:U; try discriminate end.
      destruct (seg_upd_list _ _ _ _ _ _ _ U) as (l1 & x & l2 & lo' & hi' & sa & E1 & E2 & E3 & E4). rewrite E1, nth_error_app2, E2, Nat.sub_diag in Nx by lia. discriminate.
  - eapply LOC; [|exact ST]. intros lo hi pend' tn o' t' N1 K' A. cbn beta in A. eapply split_okt; eauto.
  - eapply LOC; [|exact ST]. intros lo hi pend' tn o' t' N1 K' A. cbn beta in A. destruct tn as [l|mx lk ch]; [discriminate|].
    unfold child_at. rewrite N1.
    assert (AB : exists a b, nth_error (seg_list ch) i = Some a /\ nth_error (seg_list ch) (S i) = Some b).
    { cbn [merge_children] in A. destruct (negb (free lk)); [|discriminate].
      match type of A with context [seg_upd2 lo hi i ?f0 ch] => destruct (seg_upd2 lo hi i f0 ch) as [ch'| |] eqn:U; try discriminate end.
      destruct (seg_upd2_list _ _ _ _ _ _ U) as (l1 & a & b & l2 & lo' & hi' & p & sa & E1 & E2 & E3 & E4). exists a, b. rewrite E1, !nth_error_app2 by lia.
      replace (i - length l1) with 0 by lia. replace (S i - length l1) with 1 by lia. auto. }
    destruct AB as ((ba & ta) & (bb & tb) & Na & Nb). rewrite Na, Nb. cbn [has_msgs at_leaf].
    eapply (merge_okt _ _ _ _ _ _ _ _ _ _ _ (ba, ta) (bb, tb)); eauto.
  - unfold local, new_root in ST. destruct (free (lock_of (s_tree s))); [|discriminate]. injection ST as <- <-. cbn [s_top s_tree].
    apply okt_node. split; [split; [exact NN|intros n []]|]. cbn [seg_list]. constructor; [|constructor]. exact K.
  - eapply LOC0; [|exact ST]. intros lo hi pend' tn o' t' K' A. cbn beta in A. destruct tn as [l|mx lk ch]; [|discriminate]. cbn [write_leaf] in A.
    destruct (l_dirty l); [|discriminate]. destruct (forallb in_mem (seg_list (l_parts l))); [|discriminate].
    match type of A with context [rebalance ?a ?b ?c ?d] => destruct (rebalance a b c d); try discriminate end. injection A as <-. eapply okt_like_leaf; eauto.
  - eapply LOC0; [|exact ST]. intros lo hi pend' tn o' t' K' A. cbn beta in A. destruct tn as [l|mx lk ch]; [|discriminate]. cbn [evict_bn] in A.
    destruct (negb (l_dirty l)); [|discriminate]. match type of A with context [seg_upd ?a ?b ?c ?d ?e] => destruct (seg_upd a b c d e) as [[? ?]| |]; try discriminate end.
    injection A as <-. eapply okt_like_leaf; eauto.
  - eapply LOC0; [|exact ST]. intros lo hi pend' tn o' t' K' A. cbn beta in A. destruct tn as [l|mx lk ch]; [|discriminate]. cbn [fetch_bn] in A.
    match type of A with context [seg_upd ?a ?b ?c ?d ?e] => destruct (seg_upd a b c d e) as [[? ?]| |]; try discriminate end.
    injection A as <-. eapply okt_like_leaf; eauto.
  - eapply LOC0; [|exact ST]. intros lo hi pend' tn o' t' K' A. cbn beta in A. destruct tn as [l|mx lk ch]; [discriminate|]. cbn [move_stale] in A.
    match type of A with context [seg_upd ?a ?b ?c ?d ?e] => destruct (seg_upd a b c d e) as [[ch' ?]| |] eqn:U; try discriminate end.
    injection A as <-. destruct o' as [v os]. apply okt_node in K'. destruct K' as (H' & K'). apply okt_node. split; [exact H'|].
    destruct (seg_upd_list _ _ _ _ _ _ _ U) as (l1 & x & l2 & lo' & hi' & sa & E1 & E2 & E3 & E4). injection E3 as <- <-. rewrite E1 in K'. rewrite E4.
    destruct (F2_mid _ _ _ _ _ K') as (o1 & ox & o2 & -> & EL & K1 & Kx & K2). apply Forall2_app; [exact K1|]. cbn [seg_list app].
    constructor; [|exact K2]. unfold kid in *. cbn [fst snd]. rewrite map_map. cbn [e_msn]. exact Kx.
Qed.

Lemma init_okt none : (n0 none <= MIN_MSN)%N -> okt (s_top (init (E:=E))) [] (oinit none) (s_tree (init (E:=E))).
Proof. intros K. cbn [init s_top s_tree oinit]. apply okt_leaf. split; [|reflexivity]. split; [exact K|intros n []]. Qed.
End P.
