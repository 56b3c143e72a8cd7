(** The deadlock check finds exactly the cycles through the requester. *)
From Coq Require Import Sorting.Sorted Relations.
From Verif Require Import Base Bytes LtTreeModel RangeBufModel LtModel WfgModel LtSpec LtTreeProofs RangeBufProofs LtProofs.
Open Scope N_scope.

(** ** Graphs *)

Definition edge (w : wfg) (a b : txnid) : Prop := exists es, find_node a w = Some es /\ In b es.
Definition node (w : wfg) (a : txnid) : Prop := find_node a w <> None.
Definition wsorted (w : wfg) : Prop := StronglySorted (fun a b => fst a < fst b) w.

Lemma find_node_lt x w : Forall (fun a => x < fst a) w -> find_node x w = None.
Proof.
  induction w as [|[y es] w IH]; intros H; auto. cbn. inversion H; subst. cbn in *.
  replace (x =? y) with false by lia. auto.
Qed.

Lemma create_forall x y w : x < y -> Forall (fun a : txnid * list txnid => x < fst a) w ->
  Forall (fun a => x < fst a) (create_node y w).
Proof.
  intros Hl. induction w as [|[z es] w IH]; intros H; cbn; [repeat constructor; cbn; auto|].
  inversion H; subst. destruct (y <? z); [constructor; auto|]. destruct (y =? z); auto.
Qed.

Lemma create_sorted x w : wsorted w -> wsorted (create_node x w).
Proof.
  induction w as [|[y es] w IH]; intros H; cbn; [repeat constructor|].
  inversion H; subst. destruct (x <? y) eqn:E1.
  - apply N.ltb_lt in E1. constructor; auto. constructor; cbn; auto.
    eapply Forall_impl; [|eauto]. intros a Ha. cbn in *. eapply N.lt_trans; eauto.
  - destruct (x =? y) eqn:E2; auto. constructor; [apply IH; auto|]. apply create_forall; auto. cbn. lia.
Qed.

Lemma create_find x z w : wsorted w -> find_node z (create_node x w) =
  if z =? x then Some (match find_node x w with Some es => es | None => [] end) else find_node z w.
Proof.
  induction w as [|[y es] w IH]; intros H; cbn [create_node find_node].
  - destruct (z =? x); reflexivity.
  - inversion H; subst. destruct (x <? y) eqn:E1.
    + cbn [find_node]. apply N.ltb_lt in E1. replace (x =? y) with false by lia.
      destruct (z =? x) eqn:E3; auto. rewrite (find_node_lt x w); auto.
      eapply Forall_impl; [|eauto]. intros a Ha. cbn in *. eapply N.lt_trans; eauto.
    + destruct (x =? y) eqn:E2.
      * apply N.eqb_eq in E2. subst y. cbn [find_node]. destruct (z =? x) eqn:E3; auto.
      * cbn [find_node]. rewrite IH by auto. destruct (z =? y) eqn:E3; auto.
        destruct (z =? x) eqn:E4; auto. lia.
Qed.

Lemma put_forall x a b w : Forall (fun e : txnid * list txnid => x < fst e) w ->
  Forall (fun e => x < fst e) (put_edge a b w).
Proof.
  induction w as [|[y es] w IH]; intros H; cbn; auto. inversion H; subst.
  destruct (a =? y); constructor; auto.
Qed.

Lemma put_sorted a b w : wsorted w -> wsorted (put_edge a b w).
Proof.
  induction w as [|[y es] w IH]; intros H; cbn; auto. inversion H; subst.
  destruct (a =? y); constructor; auto.
  - apply IH; auto.
  - apply put_forall; auto.
Qed.

Lemma put_find a b z w : find_node z (put_edge a b w) =
  if z =? a then option_map (set_add b) (find_node a w) else find_node z w.
Proof.
  induction w as [|[y es] w IH]; cbn.
  - destruct (z =? a); auto.
  - destruct (a =? y) eqn:E1; cbn.
    + apply N.eqb_eq in E1. subst y. destruct (z =? a); auto.
    + rewrite IH. destruct (z =? y) eqn:E2; auto. destruct (z =? a) eqn:E3; auto. lia.
Qed.

Lemma add_edge_sorted a b w : wsorted w -> wsorted (add_edge a b w).
Proof. intros. apply put_sorted, create_sorted, create_sorted. auto. Qed.

Lemma add_edge_find a b z w : wsorted w -> find_node z (add_edge a b w) =
  if z =? a then Some (set_add b (match find_node a w with Some es => es | None => [] end))
  else if z =? b then Some (match find_node b w with Some es => es | None => [] end)
  else find_node z w.
Proof.
  intros H. unfold add_edge. rewrite put_find.
  rewrite (create_find b) by (apply create_sorted; auto). rewrite (create_find b) by (apply create_sorted; auto).
  rewrite !(create_find a) by auto. rewrite N.eqb_refl.
  destruct (z =? a) eqn:E1.
  - apply N.eqb_eq in E1. subst z. destruct (a =? b) eqn:E2.
    + apply N.eqb_eq in E2. subst b. rewrite N.eqb_refl. reflexivity.
    + reflexivity.
  - destruct (z =? b) eqn:E2; auto. destruct (b =? a) eqn:E3; auto. lia.
Qed.

Lemma add_edge_edge a b w c d : wsorted w ->
  (edge (add_edge a b w) c d <-> edge w c d \/ (c = a /\ d = b)).
Proof.
  intros H. unfold edge. setoid_rewrite add_edge_find; auto.
  destruct (c =? a) eqn:E1; [|destruct (c =? b) eqn:E2].
  - apply N.eqb_eq in E1. subst c. split.
    + intros (es & [= <-] & Hi). apply set_add_in in Hi. destruct Hi as [-> |Hi]; auto.
      destruct (find_node a w) as [es|]; [|easy]. left. eauto.
    + intros [(es & Ee & Hi)|[_ ->]]; eexists; (split; [reflexivity|]); apply set_add_in; auto.
      right. rewrite Ee. auto.
  - apply N.eqb_eq in E2. subst c. apply N.eqb_neq in E1. split.
    + intros (es & [= <-] & Hi). left. destruct (find_node b w) as [es|]; [|easy]. eauto.
    + intros [(es & Ee & Hi)|[-> _]]; [|congruence]. rewrite Ee. eauto.
  - apply N.eqb_neq in E1. split; [intros (es & ? & ?); left; eauto|].
    intros [?|[-> _]]; auto. congruence.
Qed.

Lemma add_edge_node a b w c : wsorted w ->
  (node (add_edge a b w) c <-> node w c \/ c = a \/ c = b).
Proof.
  intros H. unfold node. rewrite add_edge_find by auto.
  destruct (c =? a) eqn:E1; [apply N.eqb_eq in E1; split; [auto|discriminate]|].
  destruct (c =? b) eqn:E2; [apply N.eqb_eq in E2; split; [auto|discriminate]|].
  apply N.eqb_neq in E1. apply N.eqb_neq in E2. tauto.
Qed.

Lemma node_exists_iff x w : node_exists x w = true <-> node w x.
Proof. unfold node_exists, node. destruct (find_node x w); cbn; intuition discriminate. Qed.

Lemma node_in x w : node w x <-> In x (map fst w).
Proof.
  unfold node. induction w as [|[y es] w IH]; cbn; [tauto|].
  destruct (x =? y) eqn:E.
  - apply N.eqb_eq in E. subst. split; auto; discriminate.
  - apply N.eqb_neq in E. rewrite IH. intuition congruence.
Qed.

(** ** Paths *)

Inductive chain {A} (R : A -> A -> Prop) : A -> list A -> A -> Prop :=
| chain_one a b : R a b -> chain R a [] b
| chain_more a b l c : R a b -> chain R b l c -> chain R a (b :: l) c.

Lemma chain_trans {A} (R : A -> A -> Prop) a b : clos_trans A R a b <-> exists l, chain R a l b.
Proof.
  split.
  - intros H. apply clos_trans_t1n in H. induction H as [a b H|a b c H H' [l IH]].
    + exists []. constructor; auto.
    + exists (b :: l). econstructor; eauto.
  - intros [l H]. induction H; [apply t_step; auto|]. eapply t_trans; [apply t_step|]; eauto.
Qed.

Lemma chain_app {A} (R : A -> A -> Prop) l1 : forall l2 a b c,
  chain R a (l1 ++ b :: l2) c -> chain R b l2 c.
Proof.
  induction l1 as [|x l1 IH]; cbn; intros l2 a b c H; inversion H; subst; auto. eapply IH; eauto.
Qed.

Lemma chain_cut {A} (R : A -> A -> Prop) l1 : forall l2 a b c,
  chain R a (l1 ++ b :: l2) c -> chain R a l1 b.
Proof.
  induction l1 as [|x l1 IH]; cbn; intros l2 a b c H; inversion H; subst.
  - constructor; auto.
  - econstructor; eauto.
Qed.

Lemma chain_join {A} (R : A -> A -> Prop) l1 : forall l2 a b c,
  chain R a l1 b -> chain R b l2 c -> chain R a (l1 ++ b :: l2) c.
Proof.
  induction l1 as [|x l1 IH]; cbn; intros l2 a b c H1 H2; inversion H1; subst.
  - econstructor; eauto.
  - econstructor; eauto.
Qed.

Lemma nodup_tail {A} (p q : list A) : NoDup (p ++ q) -> NoDup q.
Proof. induction p; cbn; auto. intros H. inversion H; auto. Qed.

(** Any path can be made one without repetition. *)
Lemma chain_simple (R : txnid -> txnid -> Prop) n : forall a l b, (length l <= n)%nat ->
  chain R a l b -> exists l', chain R a l' b /\ NoDup l' /\ ~ In a l' /\ ~ In b l'.
Proof.
  induction n as [|n IH]; intros a l b Hn H.
  - destruct l; [|cbn in Hn; lia]. exists []. split; auto. split; [constructor|split; auto].
  - inversion H as [? ? HR|? c l0 ? HR HC]; subst.
    + exists []. split; auto. split; [constructor|split; auto].
    + cbn in Hn. destruct (IH c l0 b ltac:(lia) HC) as (l1 & C1 & N1 & A1 & B1).
      destruct (N.eq_dec c a) as [-> |Hca].
      { exists l1. auto. }
      destruct (N.eq_dec c b) as [-> |Hcb].
      { exists []. split; [constructor; auto|]. split; [constructor|split; auto]. }
      destruct (in_dec N.eq_dec a l1) as [Hi|Hi].
      * apply in_split in Hi. destruct Hi as (p & q & ->). exists q.
        split; [eapply chain_app; eauto|].
        assert (Hq := N1). apply NoDup_remove in Hq. destruct Hq as [Hq1 Hq2].
        apply nodup_tail in Hq1. rewrite in_app_iff in Hq2, B1. cbn in B1.
        split; auto; tauto.
      * exists (c :: l1). split; [econstructor; eauto|]. split; [constructor; auto|].
        cbn. intuition.
Qed.

(** ** The search *)

Lemma cycle_sound w t n : forall vis h, cycle_from n w t vis h = Some true ->
  exists l, chain (edge w) h l t.
Proof.
  induction n as [|n IH]; intros vis h H; [discriminate|]. cbn [cycle_from] in H.
  destruct (find_node h w) as [es|] eqn:Eh; [|discriminate].
  assert (HE : forall e, In e es -> edge w h e) by (intros e He; exists es; auto).
  clear Eh. induction es as [|e es IHe]; [discriminate|].
  destruct (t =? e) eqn:Et.
  { apply N.eqb_eq in Et. subst e. exists []. constructor. apply HE. left; auto. }
  destruct (is_some (find_node e w) && negb (existsb (N.eqb e) (h :: vis))) eqn:Ec.
  - destruct (cycle_from n w t (h :: vis) e) as [[|]|] eqn:Ecy; [| |discriminate].
    + destruct (IH _ _ Ecy) as (l & Hl). exists (e :: l). econstructor; eauto. apply HE. left; auto.
    + apply IHe; auto. intros e' He. apply HE. right; auto.
  - apply IHe; auto. intros e' He. apply HE. right; auto.
Qed.

Lemma existsb_in x l : existsb (N.eqb x) l = true <-> In x l.
Proof.
  rewrite existsb_exists. split.
  - intros (y & Hy & E). apply N.eqb_eq in E. subst. auto.
  - intros H. exists x. split; auto. apply N.eqb_refl.
Qed.

Lemma existsb_notin x l : ~ In x l -> existsb (N.eqb x) l = false.
Proof.
  intros H. destruct (existsb (N.eqb x) l) eqn:E; auto. apply existsb_in in E. easy.
Qed.

Lemma chain_node w a l b : chain (edge w) a l b -> node w a.
Proof.
  intros H. inversion H as [? ? (es & E & _)|? ? ? ? (es & E & _) _]; subst; unfold node; rewrite E; easy.
Qed.

Lemma cycle_complete w t n : forall vis h l, cycle_from n w t vis h = Some false ->
  chain (edge w) h l t -> NoDup l -> ~ In h l -> ~ In t l -> (forall v, In v vis -> ~ In v l) -> False.
Proof.
  induction n as [|n IH]; intros vis h l H C Nd Hh Ht Hv; [discriminate|]. cbn [cycle_from] in H.
  destruct (find_node h w) as [es|] eqn:Eh; [|discriminate].
  assert (Hfirst : exists e, In e es /\ ((e = t) \/ (exists l', l = e :: l' /\ chain (edge w) e l' t))).
  { inversion C as [? ? (es' & E & Hi)|? e ? ? (es' & E & Hi) C']; subst; rewrite Eh in E; injection E as <-; eauto 8. }
  destruct Hfirst as (e & He & Hc). clear Eh. induction es as [|e0 es IHe]; [easy|].
  destruct (t =? e0) eqn:Et; [discriminate|]. apply N.eqb_neq in Et.
  destruct (is_some (find_node e0 w) && negb (existsb (N.eqb e0) (h :: vis))) eqn:Ec.
  - destruct (cycle_from n w t (h :: vis) e0) as [[|]|] eqn:Ecy; [discriminate| |discriminate].
    destruct He as [-> |He]; [|auto].
    destruct Hc as [-> |(l' & -> & C')]; [congruence|].
    inversion Nd; subst. cbn in Ht. eapply (IH (h :: vis) e l'); eauto.
    intros v [<- |Hvv] Hi; [apply Hh; right; auto|]. apply (Hv v Hvv). right; auto.
  - destruct He as [-> |He]; [|auto].
    destruct Hc as [-> |(l' & -> & C')]; [congruence|].
    assert (HN : node w e) by (eapply chain_node; eauto).
    unfold node in HN. destruct (find_node e w); [|easy]. cbn [is_some andb] in Ec.
    rewrite existsb_notin in Ec; [discriminate|].
    intros [<- |Hi]; [apply Hh; left; auto|]. apply (Hv e Hi). left; auto.
Qed.

Lemma cycle_total w t n : forall vis h, node w h -> NoDup (h :: vis) -> incl vis (map fst w) ->
  (length w < n + length vis)%nat -> exists b, cycle_from n w t vis h = Some b.
Proof.
  induction n as [|n IH]; intros vis h Hh Nd Hi Hl.
  - exfalso. inversion Nd; subst. assert (length (h :: vis) <= length (map fst w))%nat.
    { apply NoDup_incl_length; auto. intros a [<- |Ha]; auto. apply node_in; auto. }
    rewrite map_length in H. cbn in *. lia.
  - cbn [cycle_from]. unfold node in Hh. destruct (find_node h w) as [es|] eqn:Eh; [|easy]. clear Hh.
    assert (HN : node w h) by (unfold node; rewrite Eh; easy). clear Eh.
    induction es as [|e es IHe]; [eauto|]. destruct (t =? e); [eauto|].
    destruct (is_some (find_node e w) && negb (existsb (N.eqb e) (h :: vis))) eqn:Ec; auto.
    apply andb_prop in Ec. destruct Ec as [Ec1 Ec2].
    destruct (IH (h :: vis) e) as (b & Eb).
    + unfold node. destruct (find_node e w); easy.
    + constructor; auto. intros Hin. apply existsb_in in Hin. rewrite Hin in Ec2. discriminate.
    + intros a [<- |Ha]; auto. apply node_in; auto.
    + cbn [length]. lia.
    + rewrite Eb. destruct b; eauto.
Qed.

Lemma cycle_exists_ok w x : exists b, cycle_exists w x = Some b /\
  (b = true <-> clos_trans _ (edge w) x x).
Proof.
  unfold cycle_exists. destruct (find_node x w) as [es|] eqn:E.
  - destruct (cycle_total w x (S (length w)) [] x) as (b & Eb).
    + unfold node. rewrite E. easy.
    + constructor; [easy|constructor].
    + easy.
    + cbn. lia.
    + exists b. split; auto. split.
      * intros ->. apply chain_trans. eapply cycle_sound; eauto.
      * intros Hc. destruct b; auto. exfalso. apply chain_trans in Hc. destruct Hc as (l & Hl).
        destruct (chain_simple _ (length l) x l x (le_n _) Hl) as (l' & C & Nd & A & B).
        eapply cycle_complete; eauto.
  - exists false. split; auto. split; [discriminate|]. intros Hc. exfalso.
    apply chain_trans in Hc. destruct Hc as (l & Hl). apply chain_node in Hl. unfold node in Hl. congruence.
Qed.

(** ** Building the graph *)

Section Build.

Variable kcmp : bytes -> bytes -> comparison.
Hypothesis OK : cmp_ok kcmp.
Variable overhead : N.

Notation lt_inv := (lt_inv kcmp overhead).

(** The owners of the locks [L] in the way of [y]'s pending request. *)
Definition blocks (L : list rlock) (y : txnid) (g : rng) (c : txnid) : Prop :=
  c <> y /\ exists k, In (k, c) L /\ ~ apart kcmp g k.

(** [y]'s pending request waits for [c], which has a pending request. *)
Definition waits (L : list rlock) (p : pending) (y c : txnid) : Prop :=
  find_req c p <> None /\ exists g, find_req y p = Some g /\ blocks L y g c.

Lemma find_req_in x p g : find_req x p = Some g -> In (x, g) p.
Proof.
  induction p as [|[y h] p IH]; cbn; [discriminate|]. destruct (x =? y) eqn:E; auto.
  intros [= ->]. apply N.eqb_eq in E. subst. auto.
Qed.

(** The pending requests that are not in the graph yet. *)
Definition fresh (p : pending) (w : wfg) : list (txnid * rng) :=
  filter (fun e => negb (node_exists (fst e) w)) p.

Lemma fresh_mono p w w' : (forall c, node w c -> node w' c) -> (length (fresh p w') <= length (fresh p w))%nat.
Proof.
  intros H. unfold fresh. induction p as [|e p IH]; cbn; auto.
  destruct (node_exists (fst e) w) eqn:E1; destruct (node_exists (fst e) w') eqn:E2; cbn; try lia.
  exfalso. apply node_exists_iff in E1. apply H in E1. apply node_exists_iff in E1. congruence.
Qed.

Lemma fresh_less p w w' c g : (forall c, node w c -> node w' c) -> In (c, g) p ->
  ~ node w c -> node w' c -> (length (fresh p w') < length (fresh p w))%nat.
Proof.
  intros H Hi Hn Hn'. unfold fresh. induction p as [|e p IH]; cbn; [easy|].
  destruct Hi as [-> |Hi].
  - cbn [fst]. assert (node_exists c w = false) as ->.
    { destruct (node_exists c w) eqn:E; auto. apply node_exists_iff in E. easy. }
    assert (node_exists c w' = true) as -> by (apply node_exists_iff; auto). cbn.
    pose proof (fresh_mono p w w' H). unfold fresh in *. lia.
  - specialize (IH Hi).
    destruct (node_exists (fst e) w) eqn:E1; destruct (node_exists (fst e) w') eqn:E2; cbn; try lia.
    exfalso. apply node_exists_iff in E1. apply H in E1. apply node_exists_iff in E1. congruence.
Qed.

(** What one call of [build] adds. *)
Record built (L : list rlock) (p : pending) (x : txnid) (cs : list txnid) (w w' : wfg) : Prop := {
  bt_sorted : wsorted w';
  bt_edges : forall a b, edge w' a b <->
    edge w a b \/ (a = x /\ In b cs /\ find_req b p <> None) \/
    (a <> x /\ ~ node w a /\ node w' a /\ waits L p a b);
  bt_nodes : forall a, node w' a -> node w a \/ a = x \/ find_req a p <> None;
  bt_mono : forall a, node w a -> node w' a }.

Definition lsame (s s' : lt) : Prop :=
  elems (lt_tree s') = elems (lt_tree s) /\ lt_sto s' = lt_sto s.

Lemma edge_node w a b : edge w a b -> node w a.
Proof. intros (es & E & _). unfold node. rewrite E. easy. Qed.

Definition closed (w : wfg) : Prop := forall a b, edge w a b -> node w b.

Lemma add_edge_closed a b w : wsorted w -> closed w -> closed (add_edge a b w).
Proof.
  intros S C c d H. apply add_edge_node; auto. apply add_edge_edge in H; auto.
  destruct H as [H|[-> ->]]; auto. left. eapply C; eauto.
Qed.

Lemma node_dec w a : node w a \/ ~ node w a.
Proof. unfold node. destruct (find_node a w); [left; easy|right; auto]. Qed.

Lemma built_refl L p x w : wsorted w -> built L p x [] w w.
Proof.
  intros S. constructor; auto. intros a b. split; auto.
  intros [H|[(_ & [] & _)|(_ & H1 & H2 & _)]]; auto. easy.
Qed.

(** Handling the conflict [c] first, then the rest. *)
Lemma built_step L p x c cs w w1 w' : x <> c ->
  wsorted w -> find_req c p <> None ->
  (* the step for [c] *)
  (forall a b, edge w1 a b <-> edge w a b \/ (a = x /\ b = c) \/
                (a <> x /\ ~ node w a /\ node w1 a /\ waits L p a b)) ->
  (forall a, node w1 a -> node w a \/ a = x \/ find_req a p <> None) ->
  (forall a, node w a -> node w1 a) ->
  built L p x cs w1 w' -> built L p x (c :: cs) w w'.
Proof.
  intros Hx S Hc He Hn Hm B. destruct B as [B1 B2 B3 B4]. constructor; auto.
  - intros a b. rewrite B2, He. cbn [In]. split.
    + intros [[H|[(-> & ->)|H]]|[(-> & H1 & H2)|(H1 & H2 & H3 & H4)]]; auto.
      * right; left. auto.
      * right; right. destruct H as (? & ? & ? & ?). auto.
      * right; left. auto.
      * right; right. split; auto.
    + intros [H|[(-> & [<- |H1] & H2)|(H1 & H2 & H3 & H4)]].
      * auto.
      * left; right; left; auto.
      * right; left; auto.
      * destruct (node_dec w1 a) as [D|D]; [left; right; right; auto|right; right; auto].
  - intros a H. destruct (B3 a H) as [H'|[H'|H']]; auto.
Qed.

Lemma build_ok gs ext p : Forall (fun e => valid kcmp (snd e)) p -> forall n x cs s w,
  lt_inv s gs ext -> ~ In x cs -> wsorted w -> closed w -> (length (fresh p w) < n)%nat ->
  exists s' w', build kcmp n p x cs s w = Some (s', w') /\ lt_inv s' gs ext /\ lsame s s' /\
    closed w' /\ built (elems (lt_tree s)) p x cs w w'.
Proof.
  intros Hp. induction n as [|n IH]; intros x cs s w I Hx S C Hn; [lia|].
  cbn [build]. revert s w I S C Hn. induction cs as [|c cs IHc]; intros s w I S C Hn.
  { exists s, w. do 2 (split; auto). split; [split; auto|]. split; auto. apply built_refl; auto. }
  assert (Hxc : x <> c) by (intros ->; apply Hx; left; auto).
  assert (Hxs : ~ In x cs) by (intros Hi; apply Hx; right; auto).
  specialize (IHc Hxs).
  apply not_eq_sym in Hxc as Hcx. apply N.eqb_neq in Hcx. rewrite Hcx. cbn [negb].
  destruct (find_req c p) as [g|] eqn:Ef.
  2:{ destruct (IHc s w I S C Hn) as (s' & w' & E & I' & L' & C' & B). exists s', w'.
      do 4 (split; [solve [auto]|]). destruct B as [B1 B2 B3 B4]. constructor; auto. intros a b. rewrite B2. cbn [In].
      split; [intros [H|[(-> & H1 & H2)|H]]; auto; right; left; auto|].
      intros [H|[(-> & [<- |H1] & H2)|H]]; auto; congruence. }
  assert (S1 := add_edge_sorted x c w S). assert (C1 := add_edge_closed x c w S C).
  assert (M1 : forall a, node w a -> node (add_edge x c w) a) by (intros a Ha; apply add_edge_node; auto).
  assert (Nx : node (add_edge x c w) x) by (apply add_edge_node; auto).
  assert (Nc : node (add_edge x c w) c) by (apply add_edge_node; auto).
  destruct (node_exists c w) eqn:Ex.
  - apply node_exists_iff in Ex.
    assert (Hn1 : (length (fresh p (add_edge x c w)) < Datatypes.S n)%nat).
    { pose proof (fresh_mono p _ _ M1). lia. }
    destruct (IHc s _ I S1 C1 Hn1) as (s' & w' & E & I' & L' & C' & B). exists s', w'.
    do 4 (split; [solve [auto]|]). eapply built_step with (w1 := add_edge x c w); eauto; [congruence| |].
    + intros a b. rewrite add_edge_edge by auto. split; [intuition|].
      intros [H|[H|(H1 & H2 & H3 & _)]]; auto. exfalso. apply add_edge_node in H3; auto.
      destruct H3 as [?|[?| ->]]; easy.
    + intros a Ha. apply add_edge_node in Ha; auto. destruct Ha as [?|[?| ->]]; auto.
  - assert (Hnc : ~ node w c).
    { intros H. apply node_exists_iff in H. congruence. }
    assert (Hfr : (length (fresh p (add_edge x c w)) < n)%nat).
    { pose proof (fresh_less p w (add_edge x c w) c g M1 (find_req_in _ _ _ Ef) Hnc Nc). lia. }
    assert (Hv : valid kcmp g).
    { rewrite Forall_forall in Hp. apply find_req_in in Ef. apply (Hp _ Ef). }
    destruct (get_conflicts_ok kcmp OK overhead s gs ext c g I Hv) as (cs2 & s1 & Eg & I1 & Et1 & Es1 & Hcs2).
    rewrite Eg.
    assert (Hc2 : ~ In c cs2).
    { intros Hi. apply Hcs2 in Hi. destruct Hi as [Hne _]. apply Hne. reflexivity. }
    destruct (IH c cs2 s1 (add_edge x c w) I1 Hc2 S1 C1 Hfr) as (s2 & w2 & Eb & I2 & L2 & C2 & B2).
    rewrite Eb. destruct B2 as [T1 T2 T3 T4].
    assert (Hn2 : (length (fresh p w2) < Datatypes.S n)%nat).
    { pose proof (fresh_mono p _ _ T4). lia. }
    destruct (IHc s2 w2 I2 T1 C2 Hn2) as (s' & w' & E & I' & L' & C' & B). exists s', w'.
    destruct L2 as [L2a L2b], L' as [L'a L'b].
    split; auto. split; auto. split; [split; congruence|]. split; auto.
    rewrite L2a, Et1 in B.
    eapply built_step with (w1 := w2); eauto; [congruence| |].
    + intros a b. rewrite T2, add_edge_edge by auto. rewrite Et1. split.
      * intros [[H|[-> ->]]|[(-> & H1 & H2)|(H1 & H2 & H3 & H4)]]; auto.
        -- right; right. split; auto. split; auto. split; auto. split; auto. exists g. split; auto.
           apply Hcs2. auto.
        -- right; right. assert (~ node w a /\ a <> x) as [? ?].
           { split; [intros Hw; apply H2; auto|]. intros ->. easy. }
           auto.
      * intros [H|[[-> ->]|(H1 & H2 & H3 & H4)]]; auto.
        destruct (N.eq_dec a c) as [-> |Hac].
        -- right; left. destruct H4 as (H4 & g' & Eg' & Hne & k & Hin & Hap).
           rewrite Ef in Eg'. injection Eg' as <-. split; auto. split; auto.
           apply Hcs2. eauto.
        -- right; right. split; auto. split; auto. rewrite add_edge_node by auto.
           intros [?|[?|?]]; easy.
    + intros a Ha. apply T3 in Ha. destruct Ha as [Ha|[-> |Ha]]; auto.
      * apply add_edge_node in Ha; auto. destruct Ha as [?|[?| ->]]; auto. right; right; congruence.
      * right; right; congruence.
Qed.

Lemma chain_start {A} (R : A -> A -> Prop) a l c : chain R a l c ->
  (l = [] /\ R a c) \/ exists b l', l = b :: l' /\ R a b /\ chain R b l' c.
Proof. intros H. inversion H; subst; eauto 6. Qed.

(** locktree/lock_request.cc:164-173: the answer is yes exactly when some pending
    conflict waits, directly or through others, for the requester. *)
Lemma deadlock_exists_ok gs ext p s x cs : Forall (fun e => valid kcmp (snd e)) p ->
  lt_inv s gs ext -> ~ In x cs ->
  exists b s', deadlock_exists kcmp p x cs s = Some (b, s') /\ lt_inv s' gs ext /\ lsame s s' /\
    (b = true <-> exists c, In c cs /\ find_req c p <> None /\
                    clos_trans _ (waits (elems (lt_tree s)) p) c x).
Proof.
  intros Hp I Hx. unfold deadlock_exists.
  destruct (build_ok gs ext p Hp (S (length p)) x cs s [] I Hx) as (s' & w & E & I' & L' & C & B).
  - constructor.
  - intros a b (es & Ee & _). discriminate.
  - unfold fresh. clear. induction p; cbn in *; lia.
  - rewrite E. destruct (cycle_exists_ok w x) as (b & Eb & Hb). rewrite Eb.
    exists b, s'. split; auto. split; auto. split; auto. rewrite Hb. clear Hb Eb.
    destruct B as [B1 B2 B3 B4].
    assert (HE : forall a b, edge w a b <-> (a = x /\ In b cs /\ find_req b p <> None) \/
              (a <> x /\ node w a /\ waits (elems (lt_tree s)) p a b)).
    { intros a c. rewrite B2. split.
      - intros [(es & Ee & _)|[H|(H1 & _ & H3 & H4)]]; [discriminate|auto|auto].
      - intros [H|(H1 & H2 & H3)]; auto. right; right. split; auto. }
    split.
    + intros Hc. apply chain_trans in Hc. destruct Hc as (l & Hl).
      destruct (chain_simple _ (length l) x l x (le_n _) Hl) as (l' & Cl & Nd & Hi & _).
      apply chain_start in Cl. destruct Cl as [[-> Hee]|(c & l2 & -> & Hee & Cl)].
      * apply HE in Hee. destruct Hee as [(_ & Hic & _)|(Hne & _)]; easy.
      * apply HE in Hee. destruct Hee as [(_ & Hic & Hpc)|(Hne & _)]; [|easy].
        exists c. split; auto. split; auto. apply chain_trans. exists l2.
        assert (Hcx : c <> x) by (intros ->; easy).
        assert (Hix : ~ In x l2) by (intros Hi2; apply Hi; right; auto).
        clear - Cl HE Hcx Hix. revert c Cl Hcx. induction l2 as [|d l2 IH]; intros c Cl Hcx;
          apply chain_start in Cl.
        -- destruct Cl as [[_ Hee]|(? & ? & ? & _)]; [|discriminate].
           apply HE in Hee. destruct Hee as [(-> & _)|(_ & _ & Hw)]; [easy|]. constructor; auto.
        -- destruct Cl as [[? _]|(d' & l3 & [= <- <-] & Hee & Cl)]; [discriminate|].
           apply HE in Hee. destruct Hee as [(-> & _)|(_ & _ & Hw)]; [easy|]. econstructor; eauto.
           apply IH; auto; [intros Hi; apply Hix; right; auto|]. intros ->. apply Hix. left; auto.
    + intros (c & Hic & Hpc & Hc). apply chain_trans in Hc. destruct Hc as (l & Hl).
      destruct (chain_simple _ (length l) c l x (le_n _) Hl) as (l' & Cl & Nd & _ & Hix).
      assert (Hee : edge w x c) by (apply HE; auto).
      apply chain_trans. exists (c :: l'). econstructor; eauto.
      assert (Hcx : c <> x) by (intros ->; easy).
      assert (Hnc : node w c) by (eapply C; eauto).
      clear - Cl HE Hix Hcx Hnc C. revert c Cl Hcx Hnc. induction l' as [|d l' IH]; intros c Cl Hcx Hnc;
        apply chain_start in Cl.
      * destruct Cl as [[_ Hw]|(? & ? & ? & _)]; [|discriminate]. constructor. apply HE. auto.
      * destruct Cl as [[? _]|(d' & l3 & [= <- <-] & Hw & Cl)]; [discriminate|].
        assert (Hed : edge w c d) by (apply HE; auto). econstructor; eauto.
        apply IH; auto; [intros Hi; apply Hix; right; auto|intros ->; apply Hix; left; auto|].
        eapply C; eauto.
Qed.

End Build.
