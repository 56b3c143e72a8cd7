(** C66: memory arenas. *)
From Coq Require Import Permutation.
From Verif Require Import Base ArnModel.

(** ** Specification *)
Definition apart (x y : alloc) : Prop := l_id x <> l_id y \/ (l_off x + l_len x <= l_off y)%N \/ (l_off y + l_len y <= l_off x)%N.
Definition req_pos (e : aev) : Prop := match e with AMalloc _ n => (0 < n)%N | _ => True end.

(** ** Lemmas *)
Lemma nodup_app_i {A} (a b : list A) : NoDup a -> NoDup b -> (forall x, In x a -> In x b -> False) -> NoDup (a ++ b).
Proof. induction a as [|x a IH]; cbn; auto. intros H1 H2 H3. inversion H1; subst. constructor; [|apply IH; auto; intros; eapply H3; eauto]. rewrite in_app_iff. intros [H|H]; [auto|eapply H3; eauto]. Qed.
Lemma ids_in a b : In b (ids a) <-> exists c, In c (chunks a) /\ h_buf c = Some b.
Proof.
  unfold ids. rewrite in_flat_map. split; intros (c & I & H); exists c; split; auto; unfold hid in *.
  - destruct (h_buf c) as [d|]; cbn in H; [|contradiction]. destruct H as [->|[]]; auto.
  - rewrite H. left. auto.
Qed.
Lemma chunk_uniq l : NoDup (flat_map hid l) -> forall c d b, In c l -> In d l -> h_buf c = Some b -> h_buf d = Some b -> c = d.
Proof.
  assert (F : forall l c b, In c l -> h_buf c = Some b -> In b (flat_map hid l)) by (intros m c b I H; rewrite in_flat_map; exists c; split; auto; unfold hid; rewrite H; left; auto).
  induction l as [|x l IH]; intros N c d b C D EC ED; [contradiction|]. cbn [flat_map] in N. cbn [In] in C, D. destruct C as [->|C], D as [->|D]; auto.
  - exfalso. unfold hid at 1 in N. rewrite EC in N. cbn in N. inversion N as [|? ? N1 _]. apply N1. eapply F; eauto.
  - exfalso. unfold hid at 1 in N. rewrite ED in N. cbn in N. inversion N as [|? ? N1 _]. apply N1. eapply F; eauto.
  - apply (IH) with (b := b); auto. clear - N. unfold hid in N at 1. destruct (h_buf x); cbn in N; auto. inversion N; auto.
Qed.
Lemma round_ge n : (n <= round_to_page n)%N.
Proof. unfold round_to_page. destruct (N.eqb_spec n 0); [lia|]. pose proof (N.div_mod (n - 1) 4096 ltac:(lia)). pose proof (N.mod_lt (n - 1) 4096 ltac:(lia)). lia. Qed.
Lemma round_pos n : (0 < n -> 0 < round_to_page n)%N.
Proof. pose proof (round_ge n). lia. Qed.

Lemma malloc_spec a n f a1 b off : arn_malloc a n f = Some (a1, b, off) -> NoDup (ids a) -> ~ In f (ids a) ->
  (forall c, In c (chunks a) -> (h_used c <= h_size c)%N) ->
  NoDup (ids a1) /\ (forall x, In x (ids a1) -> In x (ids a) \/ x = f) /\
  (forall c id, In c (chunks a) -> h_buf c = Some id -> exists c1, In c1 (chunks a1) /\ h_buf c1 = Some id /\ (h_used c <= h_used c1)%N) /\
  (exists c, In c (chunks a1) /\ h_buf c = Some b /\ (off + n <= h_used c)%N) /\
  (forall c, In c (chunks a) -> h_buf c = Some b -> (h_used c <= off)%N) /\
  (forall c, In c (chunks a1) -> (h_used c <= h_size c)%N).
Proof.
  intros X N F U. unfold arn_malloc in X. destruct (h_buf (a_cur a)) as [d|] eqn:B.
  - destruct (h_size (a_cur a) <? h_used (a_cur a) + n)%N eqn:L.
    + destruct (0 <? h_size (a_cur a))%N; [|discriminate]. injection X as <- <- <-.
      assert (P : Permutation (f :: ids a) (ids (mkArn (mkChk (Some f) n (round_to_page (N.max (N.min arn_max (2 * h_size (a_cur a))) n))) (a_oth a ++ [a_cur a])))).
      { unfold ids, chunks. cbn [a_cur a_oth flat_map]. unfold hid at 3. cbn [h_buf app]. constructor. rewrite flat_map_app. cbn [flat_map]. rewrite app_nil_r. apply Permutation_app_comm. }
      split; [eapply Permutation_NoDup; [exact P|constructor; auto]|]. split; [intros x I; apply (Permutation_in _ (Permutation_sym P)) in I; destruct I as [<-|I]; auto|].
      assert (CI : forall c, In c (chunks a) -> In c (a_oth a ++ [a_cur a])) by (intros c [<-|I]; rewrite in_app_iff; cbn; auto).
      repeat split.
      * intros c id I H. exists c. split; [right; apply CI; auto|]. split; auto; lia.
      * eexists. split; [left; reflexivity|]. cbn [a_cur h_buf h_used]. split; auto; lia.
      * intros c I H. exfalso. apply F. apply ids_in. eauto.
      * intros c [<-|I]; cbn [h_used h_size a_cur]; [match goal with |- context [round_to_page ?z] => pose proof (round_ge z) end; lia|].
        apply U. cbn [a_oth] in I. apply in_app_iff in I. destruct I as [I|[<-|[]]]; [right|left]; auto.
    + injection X as <- <- <-. apply N.ltb_ge in L.
      assert (P : ids (mkArn (mkChk (Some d) (h_used (a_cur a) + n) (h_size (a_cur a))) (a_oth a)) = ids a).
      { unfold ids, chunks. cbn [a_cur a_oth flat_map]. unfold hid at 1 3. cbn [h_buf]. rewrite B. auto. }
      rewrite P. split; [auto|]. split; [auto|]. repeat split.
      * intros c id [<-|I] H; [eexists; split; [left; reflexivity|]; cbn [a_cur h_buf h_used]; split; [congruence|lia]|]. exists c. split; [right; auto|]. split; auto; lia.
      * eexists. split; [left; reflexivity|]. cbn [a_cur h_buf h_used]. split; auto; lia.
      * intros c I H. assert (c = a_cur a) by (apply (chunk_uniq (chunks a) N c (a_cur a) d); auto; left; auto). subst c. lia.
      * intros c [<-|I]; cbn [h_used h_size a_cur]; [lia|]. apply U. right. auto.
  - injection X as <- <- <-.
    assert (P : forall sz, ids (mkArn (mkChk (Some f) n sz) (a_oth a)) = f :: ids a).
    { intros sz. unfold ids, chunks. cbn [a_cur a_oth flat_map]. unfold hid at 1 3. cbn [h_buf]. rewrite B. auto. }
    rewrite P. split; [constructor; auto|]. split; [intros x [<-|I]; auto|]. repeat split.
    + intros c id [<-|I] H; [congruence|]. exists c. split; [right; auto|]. split; auto; lia.
    + eexists. split; [left; reflexivity|]. cbn [a_cur h_buf h_used]. split; auto; lia.
    + intros c I H. exfalso. apply F. apply ids_in. eauto.
    + intros c [<-|I]; cbn [h_used h_size a_cur]; [match goal with |- context [round_to_page ?z] => pose proof (round_ge z) end; lia|]. apply U. right. auto.
Qed.

Record yinv (s : asys) : Prop := {
  yi_nd : forall i, NoDup (ids (y_a s i));
  yi_one : forall i k b, In b (ids (y_a s i)) -> In b (ids (y_a s k)) -> i = k;
  yi_lt : forall i b, In b (ids (y_a s i)) -> b < y_next s;
  yi_flt : forall b, In b (y_freed s) -> b < y_next s;
  yi_fr : forall i b, In b (y_freed s) -> ~ In b (ids (y_a s i));
  yi_fnd : NoDup (y_freed s);
  yi_us : forall i c, In c (chunks (y_a s i)) -> (h_used c <= h_size c)%N;
  yi_al : forall x, In x (y_allocs s) -> match l_own x with
            | Some i => exists c, In c (chunks (y_a s i)) /\ h_buf c = Some (l_id x) /\ (l_off x + l_len x <= h_used c)%N
            | None => In (l_id x) (y_freed s) end;
  yi_ap : ForallOrdPairs apart (y_allocs s) }.

Lemma fop_map (f : alloc -> alloc) l : (forall x, l_id (f x) = l_id x /\ l_off (f x) = l_off x /\ l_len (f x) = l_len x) -> ForallOrdPairs apart l -> ForallOrdPairs apart (map f l).
Proof.
  intros F. induction 1 as [|x l H1 H2 IH]; cbn [map]; constructor; auto. apply Forall_map. eapply Forall_impl; [|exact H1]. intros y. unfold apart.
  destruct (F x) as (-> & -> & ->), (F y) as (-> & -> & ->). auto.
Qed.
Lemma fop_app l x : ForallOrdPairs apart l -> (forall y, In y l -> apart y x) -> ForallOrdPairs apart (l ++ [x]).
Proof. induction 1 as [|y l H1 H2 IH]; intros H; cbn [app]; constructor; auto. - constructor. - apply Forall_app. split; auto. constructor; auto. apply H. left; auto. - apply IH. intros; apply H; right; auto. Qed.
Lemma reown_same i o x : l_id (reown i o x) = l_id x /\ l_off (reown i o x) = l_off x /\ l_len (reown i o x) = l_len x.
Proof. unfold reown. destruct (l_own x) as [k|]; auto. destruct (k =? i); auto. Qed.

Lemma step_yinv s e s1 : yinv s -> astep s e = Some s1 -> yinv s1.
Proof.
  intros [V1 V2 V3 V3f V4 V4n V6 V5 V7] X. destruct e as [i n|i n|i k|i]; cbn [astep] in X.
  - destruct (ids (y_a s i)) eqn:E; [|discriminate]. destruct (a_oth (y_a s i)) eqn:E2; [|discriminate]. injection X as <-.
    assert (NI : forall b, In b (ids (arn_create n (y_next s))) -> b = y_next s).
    { unfold arn_create. intros b. destruct (0 <? n)%N; cbn; [intros [<-|[]]; auto|contradiction]. }
    assert (F : forall j b, In b (ids (upd (y_a s) i (arn_create n (y_next s)) j)) -> (j = i /\ b = y_next s) \/ In b (ids (y_a s j))).
    { intros j b. unfold upd. destruct (Nat.eqb_spec j i); auto. }
    split; cbn [y_a y_next y_allocs y_freed]; auto.
    + intros j. unfold upd. destruct (j =? i); auto. unfold arn_create. destruct (0 <? n)%N; cbn; repeat constructor; auto.
    + intros j k b H1 H2. apply F in H1, H2. destruct H1 as [[-> ->]|H1], H2 as [[-> Q]|H2]; auto; try (apply V3 in H2; lia); [subst; apply V3 in H1; lia|eapply V2; eauto].
    + intros j b H. apply F in H. destruct H as [[_ ->]|H]; [lia|]. apply V3 in H. lia.
    + intros b H. apply V3f in H. lia.
    + intros j b H1 H2. apply F in H2. destruct H2 as [[_ ->]|H2]; [apply V3f in H1; lia|eapply V4; eauto].
    + intros j c. unfold upd. destruct (j =? i); [|apply V6]. unfold arn_create. destruct (0 <? n)%N; cbn; intros [<-|[]]; cbn; lia.
    + intros x I. specialize (V5 x I). destruct (l_own x) as [j|]; auto. unfold upd. destruct (Nat.eqb_spec j i) as [->|]; auto. exfalso.
      destruct V5 as (c & C1 & C2 & _). assert (J : In (l_id x) (ids (y_a s i))) by (apply ids_in; eauto). rewrite E in J. destruct J.
  - destruct (arn_malloc (y_a s i) n (y_next s)) as [[[a b] off]|] eqn:M; [|discriminate]. injection X as <-.
    assert (NF : ~ In (y_next s) (ids (y_a s i))) by (intros J; apply V3 in J; lia).
    destruct (malloc_spec _ _ _ _ _ _ M (V1 i) NF (V6 i)) as (S1 & S2 & S3 & S4 & S5 & S6).
    assert (F : forall j d, In d (ids (upd (y_a s) i a j)) -> (j = i /\ d = y_next s) \/ In d (ids (y_a s j))).
    { intros j d. unfold upd. destruct (Nat.eqb_spec j i) as [->|]; auto. intros H. destruct (S2 d H); auto. }
    assert (BI : In b (ids a)) by (destruct S4 as (c & C1 & C2 & _); apply ids_in; eauto).
    split; cbn [y_a y_next y_allocs y_freed]; auto.
    + intros j. unfold upd. destruct (j =? i); auto.
    + intros j k d H1 H2. apply F in H1, H2. destruct H1 as [[-> ->]|H1], H2 as [[-> Q]|H2]; auto; try (apply V3 in H2; lia); [subst; apply V3 in H1; lia|eapply V2; eauto].
    + intros j d H. apply F in H. destruct H as [[_ ->]|H]; [lia|]. apply V3 in H. lia.
    + intros d H. apply V3f in H. lia.
    + intros j d H1 H2. apply F in H2. destruct H2 as [[_ ->]|H2]; [apply V3f in H1; lia|eapply V4; eauto].
    + intros j c. unfold upd. destruct (j =? i); [apply S6|apply V6].
    + intros x I. apply in_app_iff in I. destruct I as [I|[<-|[]]]; cbn [l_own l_id l_off l_len].
      * specialize (V5 x I). destruct (l_own x) as [j|]; auto. unfold upd. destruct (Nat.eqb_spec j i) as [->|]; auto.
        destruct V5 as (c & C1 & C2 & C3). destruct (S3 c _ C1 C2) as (c1 & D1 & D2 & D3). exists c1. split; auto. split; auto; lia.
      * unfold upd. rewrite Nat.eqb_refl. auto.
    + apply fop_app; auto. intros x I. unfold apart. cbn [l_id l_off l_len]. destruct (Nat.eq_dec (l_id x) b) as [E|]; auto. right. left.
      specialize (V5 x I). rewrite E in V5. destruct (l_own x) as [j|].
      * destruct V5 as (c & C1 & C2 & C3). assert (J : In b (ids (y_a s j))) by (apply ids_in; eauto).
        assert (j = i). { destruct (S2 b BI) as [K|K]; [apply (V2 j i b); auto|]. subst b. rewrite K in J. apply V3 in J. lia. }
        subst j. specialize (S5 c C1 C2). lia.
      * exfalso. destruct (S2 b BI) as [K|K]; [eapply V4; eauto|]. apply V3f in V5. lia.
  - destruct (Nat.eqb_spec i k) as [|NE]; [discriminate|]. cbn [negb] in X. injection X as <-.
    set (a := mkArn (a_cur (y_a s k)) (a_oth (y_a s k) ++ a_oth (y_a s i) ++ [a_cur (y_a s i)])).
    assert (CI : forall c, In c (chunks a) <-> In c (chunks (y_a s k)) \/ In c (chunks (y_a s i))).
    { intros c. unfold a, chunks. cbn [a_cur a_oth In]. rewrite !in_app_iff. cbn [In]. tauto. }
    assert (P : Permutation (ids (y_a s k) ++ ids (y_a s i)) (ids a)).
    { unfold ids, chunks, a. cbn [a_cur a_oth flat_map]. rewrite !flat_map_app. cbn [flat_map]. rewrite app_nil_r, <- !app_assoc. do 2 apply Permutation_app_head. apply Permutation_app_comm. }
    assert (F : forall j b, In b (ids (upd (upd (y_a s) k a) i arena0 j)) -> j <> i /\ ((j = k /\ In b (ids (y_a s i))) \/ In b (ids (y_a s j)))).
    { intros j b. unfold upd. destruct (Nat.eqb_spec j i) as [->|]; [cbn; contradiction|]. destruct (Nat.eqb_spec j k) as [->|]; auto.
      intros H. apply (Permutation_in _ (Permutation_sym P)) in H. apply in_app_iff in H. tauto. }
    split; cbn [y_a y_next y_allocs y_freed]; auto.
    + intros j. unfold upd. destruct (j =? i); [constructor|]. destruct (j =? k); auto. eapply Permutation_NoDup; [exact P|]. apply nodup_app_i; auto.
      intros b H1 H2. apply NE. apply (V2 i k b); auto.
    + intros j m b H1 H2. apply F in H1, H2. destruct H1 as [J1 [[-> H1]|H1]], H2 as [J2 [[-> H2]|H2]]; auto.
      * exfalso. apply J2. apply (V2 m i b); auto.
      * exfalso. apply J1. apply (V2 j i b); auto.
      * eapply V2; eauto.
    + intros j b H. apply F in H. destruct H as [_ [[_ H]|H]]; eapply V3; eauto.
    + intros j b H1 H2. apply F in H2. destruct H2 as [_ [[_ H]|H]]; eapply V4; eauto.
    + intros j c. unfold upd. destruct (j =? i); [cbn; intros [<-|[]]; cbn; lia|]. destruct (j =? k); [|apply V6]. rewrite CI. intros [H|H]; eapply V6; eauto.
    + intros x I. apply in_map_iff in I. destruct I as (y & <- & I). specialize (V5 y I). unfold reown. destruct (l_own y) as [j|] eqn:O; [|rewrite O; auto].
      destruct V5 as (c & C1 & C2 & C3). destruct (Nat.eqb_spec j i) as [->|NJ]; cbn [l_own l_id l_off l_len]; [|rewrite O].
      * exists c. unfold upd. destruct (Nat.eqb_spec k i); [congruence|]. rewrite Nat.eqb_refl. split; auto. apply CI. auto.
      * exists c. unfold upd. destruct (Nat.eqb_spec j i); [congruence|]. destruct (Nat.eqb_spec j k) as [->|]; auto. split; auto. apply CI. auto.
    + apply fop_map; auto. apply reown_same.
  - injection X as <-.
    assert (F : forall j b, In b (ids (upd (y_a s) i arena0 j)) -> j <> i /\ In b (ids (y_a s j))).
    { intros j b. unfold upd. destruct (Nat.eqb_spec j i) as [->|]; [cbn; contradiction|]; auto. }
    split; cbn [y_a y_next y_allocs y_freed]; auto.
    + intros j. unfold upd. destruct (j =? i); [constructor|]; auto.
    + intros j m b H1 H2. apply F in H1, H2. destruct H1, H2. eapply V2; eauto.
    + intros j b H. apply F in H. destruct H. eapply V3; eauto.
    + intros b H. apply in_app_iff in H. destruct H; eauto.
    + intros j b H1 H2. apply F in H2. destruct H2 as [H2 H3]. apply in_app_iff in H1. destruct H1 as [H1|H1]; [eapply V4; eauto|]. apply H2. apply (V2 j i b); auto.
    + apply nodup_app_i; auto. intros b H1 H2. eapply V4; eauto.
    + intros j c. unfold upd. destruct (j =? i); [cbn; intros [<-|[]]; cbn; lia|]. apply V6.
    + intros x I. apply in_map_iff in I. destruct I as (y & <- & I). specialize (V5 y I). unfold reown. destruct (l_own y) as [j|] eqn:O; [|rewrite O; apply in_app_iff; auto].
      destruct V5 as (c & C1 & C2 & C3). destruct (Nat.eqb_spec j i) as [->|NJ]; cbn [l_own l_id l_off l_len]; [|rewrite O].
      * apply in_app_iff. right. apply ids_in. eauto.
      * exists c. unfold upd. destruct (Nat.eqb_spec j i); [congruence|]. auto.
    + apply fop_map; auto. apply reown_same.
Qed.
Lemma init_yinv : yinv sys0.
Proof. split; cbn; try contradiction; try constructor. intros i c [<-|[]]. cbn. lia. Qed.
Lemma run_yinv es : forall s s1, yinv s -> arun s es = Some s1 -> yinv s1.
Proof.
  induction es as [|e es IH]; intros s s1 I X; cbn [arun] in X; [injection X as <-; auto|].
  destruct (astep s e) as [s2|] eqn:E; [|discriminate]. apply (IH s2); auto. eapply step_yinv; eauto.
Qed.
Lemma fop_nth l : ForallOrdPairs apart l -> forall i j x y, i < j -> nth_error l i = Some x -> nth_error l j = Some y -> apart x y.
Proof.
  induction 1 as [|z l H1 H2 IH]; intros [|i] [|j] x y L E1 E2; cbn in *; try discriminate; try lia.
  - injection E1 as <-. rewrite Forall_forall in H1. apply H1. eapply nth_error_In; eauto.
  - apply (IH i j); auto. lia.
Qed.

(** ** The theorems *)

(** Two pieces of memory given out never overlap; a piece lies within a chunk of the arena
    it belongs to, after any moves, and that chunk is not freed before that arena is
    destroyed; no chunk is freed twice. *)
Theorem C66_memory : forall es s, arun sys0 es = Some s ->
  (forall i j x y, i < j -> nth_error (y_allocs s) i = Some x -> nth_error (y_allocs s) j = Some y -> apart x y) /\
  (forall x i, In x (y_allocs s) -> l_own x = Some i -> ~ In (l_id x) (y_freed s) /\
     exists c, In c (chunks (y_a s i)) /\ h_buf c = Some (l_id x) /\ (l_off x + l_len x <= h_size c)%N) /\
  NoDup (y_freed s).
Proof.
  intros es s X. destruct (run_yinv es _ s init_yinv X) as [V1 V2 V3 V3f V4 V4n V6 V5 V7]. split; [apply fop_nth; auto|]. split; auto.
  intros x i I O. specialize (V5 x I). rewrite O in V5. destruct V5 as (c & C1 & C2 & C3). split.
  - intros H. apply (V4 i _ H). apply ids_in. eauto.
  - exists c. split; auto. split; auto. specialize (V6 i c C1). lia.
Qed.
Print Assumptions C66_memory.

(** Requests of at least one byte are always met. *)
Definition pos_cur (s : asys) : Prop := forall i b, h_buf (a_cur (y_a s i)) = Some b -> (0 < h_size (a_cur (y_a s i)))%N.
Lemma step_pos s e s1 : req_pos e -> pos_cur s -> astep s e = Some s1 -> pos_cur s1.
Proof.
  intros R P X j b. destruct e as [i n|i n|i k|i]; cbn [astep] in X.
  - destruct (ids (y_a s i)); [|discriminate]. destruct (a_oth (y_a s i)); [|discriminate]. injection X as <-. cbn [y_a]. unfold upd. destruct (j =? i); [|apply P].
    unfold arn_create. destruct (N.ltb_spec 0 n); cbn; [auto|discriminate].
  - cbn in R. destruct (arn_malloc (y_a s i) n (y_next s)) as [[[a d] off]|] eqn:M; [|discriminate]. injection X as <-. cbn [y_a]. unfold upd. destruct (j =? i); [|apply P].
    intros _. unfold arn_malloc in M. destruct (h_buf (a_cur (y_a s i))) as [q|] eqn:B.
    + destruct (h_size (a_cur (y_a s i)) <? h_used (a_cur (y_a s i)) + n)%N.
      * destruct (0 <? h_size (a_cur (y_a s i)))%N; [|discriminate]. injection M as <- _ _. cbn [a_cur h_size]. apply round_pos. lia.
      * injection M as <- _ _. cbn [a_cur h_size]. apply (P i q B).
    + injection M as <- _ _. cbn [a_cur h_size]. apply round_pos. lia.
  - destruct (negb (i =? k)); [|discriminate]. injection X as <-. cbn [y_a]. unfold upd. destruct (j =? i); [discriminate|]. destruct (j =? k); [cbn [a_cur]|]; apply P.
  - injection X as <-. cbn [y_a]. unfold upd. destruct (j =? i); [discriminate|apply P].
Qed.
Theorem C66_met : forall es s i n, Forall req_pos es -> arun sys0 es = Some s -> exists s1, astep s (AMalloc i n) = Some s1.
Proof.
  intros es s i n R X. assert (P : pos_cur s).
  { assert (P0 : pos_cur sys0) by (intros k b H; discriminate). revert X P0. generalize sys0. induction R as [|e es R1 R2 IH]; intros s0 X P0; cbn [arun] in X; [injection X as <-; auto|].
    destruct (astep s0 e) as [s2|] eqn:E; [|discriminate]. apply (IH s2); auto. eapply step_pos; eauto. }
  cbn [astep]. enough (arn_malloc (y_a s i) n (y_next s) <> None) by (destruct (arn_malloc (y_a s i) n (y_next s)) as [[[a b] off]|]; [eauto|congruence]).
  unfold arn_malloc. destruct (h_buf (a_cur (y_a s i))) as [b|] eqn:B; [|discriminate]. pose proof (P i b B) as Q. apply N.ltb_lt in Q. rewrite Q. match goal with |- (if ?x then _ else _) <> _ => destruct x end; discriminate.
Qed.
Print Assumptions C66_met.

(** A request of 0 bytes to an arena without memory makes a chunk of size 0 (round_to_page
    wraps); the next request fails the invariant and aborts. *)
Theorem C66_zero_refuted : exists s, arun sys0 [AMalloc 0 0] = Some s /\ astep s (AMalloc 0 1) = None.
Proof. eexists. split; [vm_compute; reflexivity|]. vm_compute. reflexivity. Qed.
Print Assumptions C66_zero_refuted.

(** Two arenas; a request that does not fit makes a second chunk; then a move, a further
    request and the end of the receiving arena. *)
Definition c66_es : list aev := [ACreate 0 16; AMalloc 0 10; AMalloc 0 6; AMalloc 0 1; AMalloc 1 3; AMove 0 1; AMalloc 1 4].
Example c66_ex : exists s, Forall req_pos c66_es /\ arun sys0 c66_es = Some s /\
  map (fun x => (l_own x, l_id x, l_off x)) (y_allocs s) = [(Some 1, 0, 0%N); (Some 1, 0, 10%N); (Some 1, 3, 0%N); (Some 1, 4, 0%N); (Some 1, 4, 3%N)].
Proof. eexists. split; [repeat constructor|]. split; [vm_compute; reflexivity|]. vm_compute. reflexivity. Qed.
