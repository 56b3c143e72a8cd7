(** C49: writes to several dictionaries at once.

    When put_multiple, del_multiple or update_multiple returns 0, every dictionary of
    the call has the rows the callback makes of the new source row in place of the
    rows it makes of the old one, no other dictionary changes, recovery of what was
    logged gives the same rows, and whatever changed was write locked. *)
From Coq Require Import Permutation.
From Verif Require Import Base Bytes LtSpec KOrd KeyCmp MulModel MulSpec MulProofs MulUpd MulTop MulPut.
Open Scope nat_scope.

Definition cmps_ok (e : menv) : Prop := forall d, cmp_ok (e_cmp e d).
(** Keys equal for the comparator are one row. *)
Definition one_row (e : menv) (s : mst) (d : nat) : Prop := forall y z, keq (e_cmp e d) y z -> m_rows s d y = m_rows s d z.

(** ** update_multiple *)

(** The call is given every dictionary once; the callback makes no two rows with
    equal keys. *)
Definition update_args (e : menv) (s : mst) (src : option nat) (ok ov nk nv : bytes) (dbs : list (nat * flags)) : Prop :=
  NoDup (map fst dbs) /\
  forall d fl old new, In (d, fl) dbs -> rows_of e src d ok ov = Some old -> rows_of e src d nk nv = Some new ->
    distinct (e_cmp e d) (map fst old) /\ distinct (e_cmp e d) (map fst new) /\ one_row e s d.
(** A row whose key does not change and whose new value is empty already has an
    empty value. *)
Definition empty_stays_empty (e : menv) (s : mst) (src : option nat) (ok ov nk nv : bytes) (dbs : list (nat * flags)) : Prop :=
  forall d fl old new, In (d, fl) dbs -> rows_of e src d ok ov = Some old -> rows_of e src d nk nv = Some new ->
  forall k, In (k, []) new -> In k (map fst old) -> m_rows s d k = Some [].
Lemma args_upd e s src ok ov nk nv dbs : update_args e s src ok ov nk nv dbs -> empty_stays_empty e s src ok ov nk nv dbs -> upd_args e src ok ov nk nv s dbs.
Proof. intros (A & B) C. split; [exact A|]. intros d fl old new H1 H2 H3. destruct (B d fl old new H1 H2 H3) as (B1 & B2 & B3). repeat split; auto. exact (C d fl old new H1 H2 H3). Qed.

Theorem C49_update : forall e s src ok ov nk nv dbs nkeys nvals s',
  cmps_ok e -> update_args e s src ok ov nk nv dbs -> empty_stays_empty e s src ok ov nk nv dbs ->
  update_multiple e s src ok ov nk nv dbs nkeys nvals = (s', None) ->
  (forall d fl, In (d, fl) dbs -> exists old new,
     rows_of e src d ok ov = Some old /\ rows_of e src d nk nv = Some new /\
     replaced (e_cmp e d) (m_rows s d) (m_rows s' d) (map fst old) new) /\
  (forall d, ~ In d (map fst dbs) -> forall y, m_rows s' d y = m_rows s d y).
Proof.
  intros e s src ok ov nk nv dbs n m s' C U1 U2 Q. pose proof (update_live e C src ok ov nk nv s dbs n m s' (args_upd _ _ _ _ _ _ _ _ U1 U2) Q) as L. split.
  - intros d fl Hi. specialize (L d). destruct (in_dec Nat.eq_dec d (map fst dbs)) as [H|H]; [exact L|]. exfalso. apply H, (in_map fst _ _ Hi).
  - intros d Hd. specialize (L d). destruct (in_dec Nat.eq_dec d (map fst dbs)) as [H|H]; [contradiction|exact L].
Qed.

Theorem C49_update_error : forall e s src ok ov nk nv dbs nkeys nvals s' x,
  update_multiple e s src ok ov nk nv dbs nkeys nvals = (s', Some x) ->
  x <> EBug /\ m_rows s' = m_rows s /\ m_log s' = m_log s /\ incl (m_locks s) (m_locks s').
Proof.
  intros e s src ok ov nk nv dbs n m s' x Q. apply update_shape in Q as (B & C1 & C2 & C3). repeat split; auto. congruence.
Qed.

(** The callback for deletes makes the keys the callback for puts makes. *)
Definition callbacks_agree (e : menv) (src : option nat) (k v : bytes) (dbs : list (nat * flags)) : Prop :=
  forall d fl rows, In (d, fl) dbs -> rows_of e src d k v = Some rows ->
  exists ks, keys_of e src d k v = Some ks /\ forall x, In x ks <-> In x (map fst rows).

Theorem C49_update_recovered : forall e s src ok ov nk nv dbs nkeys nvals s',
  cmps_ok e -> update_args e s src ok ov nk nv dbs -> empty_stays_empty e s src ok ov nk nv dbs -> callbacks_agree e src ok ov dbs ->
  update_multiple e s src ok ov nk nv dbs nkeys nvals = (s', None) ->
  exists l t, m_log s' = m_log s ++ l /\ replay e s l = Some t /\ forall d y, m_rows t d y = m_rows s' d y.
Proof. intros e s src ok ov nk nv dbs n m s' C U1 U2 A Q. exact (update_replay e C src ok ov nk nv s dbs n m s' (args_upd _ _ _ _ _ _ _ _ U1 U2) A Q). Qed.

(** ** put_multiple *)
Definition put_ok (e : menv) (src : option nat) (k v : bytes) (dbs : list (nat * flags)) : Prop :=
  NoDup (map fst dbs) /\ forall d fl rows, In (d, fl) dbs -> rows_of e src d k v = Some rows -> distinct (e_cmp e d) (map fst rows).

Theorem C49_put : forall e s src k v dbs s',
  cmps_ok e -> put_ok e src k v dbs -> put_multiple e s src k v dbs = (s', None) ->
  (forall d fl, In (d, fl) dbs -> exists rows, rows_of e src d k v = Some rows /\
     replaced (e_cmp e d) (m_rows s d) (m_rows s' d) [] rows /\
     (f_rest fl = FNoOverwrite -> forall x w, In (x, w) rows -> m_rows s d x = None)) /\
  (forall d, ~ In d (map fst dbs) -> forall y, m_rows s' d y = m_rows s d y).
Proof.
  intros e s src k v dbs s' C (ND & Dt) Q. apply put_shape in Q as (_ & s1 & l & Cl & [(_ & X)|(F & _ & Out & _ & Rw & _ & No & _)]); [congruence|].
  split.
  - intros d fl Hi. destruct (plist_entry e src k v s1 dbs l d fl F ND Hi) as (rows & E & In1 & Un). exists rows. split; [exact E|].
    split; [|intros Ef x w Hx; rewrite Ef in In1; eapply No; eauto].
    specialize (Dt d fl rows Hi E). split; [|split].
    + intros x w y Hx Ek. rewrite Rw. apply (wall_in e _ _ _ _ x).
      * apply in_wput. exists w, rows. split; [reflexivity|]. split; [apply (in_map fst _ _ In1)|exact Hx].
      * exact Ek.
      * intros x' o' Hi' Ek'. apply in_wput in Hi' as (w' & kvs & -> & H1 & H2). apply Un in H1. subst kvs. f_equal.
        apply (distinct_vals (C d) rows x' w' x w); auto. eapply (keq_tr (C d)); [apply (keq_sym (C d)), Ek'|exact Ek].
    + intros y _ (x & [] & _).
    + intros y Hy _. apply Out. intros kvs x w H1 H2. apply Un in H1. subst kvs. eapply Hy; eauto.
  - intros d Hd y. apply Out. intros kvs x w H. exfalso. apply Hd. rewrite (plist_dom _ _ _ _ _ _ _ F). apply (in_map fst _ _ H).
Qed.

(** A failing put_multiple changes nothing if no dictionary has flags; with
    DB_NOOVERWRITE it may have put some of the rows (C49_put_error_refuted). *)
Theorem C49_put_error_partial : forall e s src k v dbs s' x,
  (forall d fl, In (d, fl) dbs -> f_rest fl = FNone) ->
  put_multiple e s src k v dbs = (s', Some x) ->
  x <> EBug /\ m_rows s' = m_rows s /\ m_log s' = m_log s /\ incl (m_locks s) (m_locks s').
Proof.
  intros e s src k v dbs s' x Fl Q. apply put_shape in Q as (B & s1 & l & Cl & [((C1 & C2 & C3) & _)|(_ & _ & _ & R & _)]).
  - repeat split; auto. congruence.
  - specialize (R Fl). discriminate.
Qed.

Theorem C49_put_recovered : forall e s src k v dbs s',
  cmps_ok e -> put_multiple e s src k v dbs = (s', None) ->
  exists l t, m_log s' = m_log s ++ l /\ replay e s l = Some t /\ m_rows t = m_rows s'.
Proof.
  intros e s src k v dbs s' C Q. apply put_shape in Q as (_ & s1 & l & Cl & [(_ & X)|(F & _ & _ & _ & Rw & Lg & _)]); [congruence|].
  exists [LPutMulti src (map fst dbs) k v], (wall e s (wput (map fst l))). split; [exact Lg|]. split; [|symmetry; exact Rw].
  cbn [replay replay1]. rewrite (plist_dom _ _ _ _ _ _ _ F), replay_puts_wall by (eapply plist_rows; exact F). reflexivity.
Qed.

(** ** del_multiple *)
Theorem C49_del : forall e s src k v dbs s',
  cmps_ok e -> NoDup (map fst dbs) -> del_multiple e s src k v dbs = (s', None) ->
  (forall d fl, In (d, fl) dbs -> exists keys, keys_of e src d k v = Some keys /\
     replaced (e_cmp e d) (m_rows s d) (m_rows s' d) keys [] /\
     (f_rest fl <> FDeleteAny -> forall x, In x keys -> m_rows s d x <> None)) /\
  (forall d, ~ In d (map fst dbs) -> forall y, m_rows s' d y = m_rows s d y).
Proof.
  intros e s src k v dbs s' C ND Q. apply del_shape in Q as (_ & s1 & l & rd & Cl & F & Rw & _). split.
  - intros d fl Hi. destruct (dlist_entry e src k v s s1 dbs l d fl F ND Hi) as (keys & E & Un & Ex). exists keys. split; [exact E|]. split; [|exact Ex].
    split; [intros ? ? ? []|split].
    + intros y _ (x & Hx & Ek). rewrite Rw. apply (wall_in e _ _ _ _ x); [|exact Ek|].
      * apply in_wdel. split; [reflexivity|]. exists keys. split; [apply Un; reflexivity|exact Hx].
      * intros x' o' H _. apply in_wdel in H as [-> _]. reflexivity.
    + intros y _ Hy. rewrite Rw. apply wall_out. intros x o H. apply in_wdel in H as (_ & ks & H1 & H2). apply Un in H1. subst ks. apply Hy, H2.
  - intros d Hd y. rewrite Rw. apply wall_out. intros x o H. apply in_wdel in H as (_ & ks & H & _). exfalso. apply Hd.
    rewrite (dlist_dom _ _ _ _ _ _ _ _ F). apply (in_map fst _ _ H).
Qed.

Theorem C49_del_error : forall e s src k v dbs s' x,
  del_multiple e s src k v dbs = (s', Some x) ->
  x <> EBug /\ m_rows s' = m_rows s /\ m_log s' = m_log s /\ incl (m_locks s) (m_locks s').
Proof. intros e s src k v dbs s' x Q. apply del_shape in Q as (B & C1 & C2 & C3). repeat split; auto. congruence. Qed.

Theorem C49_del_recovered : forall e s src k v dbs s',
  cmps_ok e -> del_multiple e s src k v dbs = (s', None) ->
  exists l t, m_log s' = m_log s ++ l /\ replay e s l = Some t /\ m_rows t = m_rows s'.
Proof.
  intros e s src k v dbs s' C Q. apply del_shape in Q as (_ & s1 & l & rd & Cl & F & Rw & _ & Lg & Hrd).
  exists rd, (wall e s (wdel l)). split; [exact Lg|]. split; [|symmetry; exact Rw].
  destruct Hrd as [->| ->]; [apply replay_singles|]. cbn [replay replay1]. rewrite replay_dels_wall by (eapply dlist_keys; exact F). reflexivity.
Qed.

(** ** Locks *)
Inductive call :=
| CPut (src : option nat) (k v : bytes)
| CDel (src : option nat) (k v : bytes)
| CUpdate (src : option nat) (ok ov nk nv : bytes) (nkeys nvals : nat).
Definition run (e : menv) (s : mst) (c : call) (dbs : list (nat * flags)) : out :=
  match c with
  | CPut src k v => put_multiple e s src k v dbs
  | CDel src k v => del_multiple e s src k v dbs
  | CUpdate src ok ov nk nv n m => update_multiple e s src ok ov nk nv dbs n m
  end.

(** Whatever the call returns: a row that changed belongs to a dictionary of the
    call, and the transaction holds the write lock of a key equal to its key, unless
    the caller said DB_PRELOCKED_WRITE or the dictionary has no lock tree. *)
Theorem C49_locks : forall e s c dbs s' r,
  run e s c dbs = (s', r) ->
  (forall d y, m_rows s' d y <> m_rows s d y ->
   exists fl, In (d, fl) dbs /\
     (e_lt e d = true -> f_prelocked fl = false -> exists k, keq (e_cmp e d) y k /\ In (d, k) (m_locks s'))) /\
  incl (m_locks s) (m_locks s') /\ r <> Some EBug.
Proof.
  intros e s c dbs s' r.
  assert (Fin : forall s1 (l : list wop), incl (m_locks s) (m_locks s1) -> m_locks s' = m_locks s1 ->
    (forall d k o, In (d, k, o) l -> exists fl, In (d, fl) dbs /\ held e s1 d fl k) ->
    (forall d y, (forall k o, In (d, k, o) l -> ~ keq (e_cmp e d) y k) -> m_rows s' d y = m_rows s d y) -> r <> Some EBug ->
    (forall d y, m_rows s' d y <> m_rows s d y -> exists fl, In (d, fl) dbs /\
     (e_lt e d = true -> f_prelocked fl = false -> exists k, keq (e_cmp e d) y k /\ In (d, k) (m_locks s'))) /\ incl (m_locks s) (m_locks s') /\ r <> Some EBug).
  { intros s1 l L1 L2 Hh Out B. split; [|split; [rewrite L2; exact L1|exact B]]. intros d y Hy.
    destruct (wop_dec e d y l) as [(k & o & H1 & H2)|H]; [|exfalso; apply Hy, Out, H].
    destruct (Hh d k o H1) as (fl & A1 & A2). exists fl. split; [exact A1|]. intros P1 P2. exists k. split; [exact H2|]. rewrite L2. apply A2; assumption. }
  assert (Calm : calm s s' -> r <> Some EBug ->
    (forall d y, m_rows s' d y <> m_rows s d y -> exists fl, In (d, fl) dbs /\
     (e_lt e d = true -> f_prelocked fl = false -> exists k, keq (e_cmp e d) y k /\ In (d, k) (m_locks s'))) /\ incl (m_locks s) (m_locks s') /\ r <> Some EBug).
  { intros (C1 & C2 & C3) B. split; [|split; assumption]. intros d y H. rewrite C1 in H. congruence. }
  destruct c as [src k v|src k v|src ok ov nk nv n m]; cbn [run]; intros Q.
  - apply put_shape in Q as (B & s1 & l & (C1 & C2 & C3) & [(C & _)|(F & Lk & Out & _)]); [exact (Calm C B)|].
    apply (Fin s1 (wput (map fst l))); auto.
    + intros d x o H. apply in_wput in H as (w & kvs & _ & H1 & H2). eapply plist_held; eauto.
    + intros d y H. apply Out. intros kvs x w H1 H2. apply (H x (Some w)). apply in_wput. eauto.
  - apply del_shape in Q as (B & Q). destruct r as [x|]; [exact (Calm Q B)|]. destruct Q as (s1 & l & rd & (C1 & C2 & C3) & F & Rw & Lk & _).
    apply (Fin s1 (wdel l)); auto.
    + intros d x o H. apply in_wdel in H as (_ & ks & H1 & H2). eapply dlist_held; eauto.
    + intros d y H. rewrite Rw. apply wall_out, H.
  - apply update_shape in Q as (B & Q). destruct r as [x|]; [exact (Calm Q B)|]. destruct Q as (s1 & a & b & rd & rp & (C1 & C2 & C3) & F & Rw & Lk & _).
    destruct (ufacts_held _ _ _ _ _ _ _ _ _ _ F) as [H1 H2].
    apply (Fin s1 (wdel a ++ wput (map fst b))); auto.
    + intros d x o H. apply in_app_iff in H as [H|H].
      * apply in_wdel in H as (_ & ks & H3 & H4). eauto.
      * apply in_wput in H as (w & kvs & _ & H3 & H4). eauto.
    + intros d y H. rewrite Rw. rewrite wall_out; [apply wall_out|]; intros x o Hi; apply (H x o), in_app_iff; auto.
Qed.

(** ** Cases *)

(** Dictionary 0 is the source.  Dictionary 1 has a row for every byte of the
    source value, with an empty value; dictionary 2 has one row, from the value to
    the key. *)
Definition ex_env : menv := mkMenv (fun _ => key_cmp)
  (fun d _ k v => match d with 1 => Some (map (fun b => ([b], [])) v) | 2 => Some [(v, k)] | _ => None end)
  (fun d _ k v => match d with 1 => Some (map (fun b => [b]) v) | 2 => Some [v] | _ => None end)
  (fun _ _ => true) (fun _ => true) 41%N 33%N.
Definition plain : flags := mkFlags false FNone.
Definition noover : flags := mkFlags false FNoOverwrite.
Definition empty : mst := mkMst (fun _ _ => None) [] [].
Definition three (fl : flags) : list (nat * flags) := [(0, fl); (1, fl); (2, fl)].

Lemma ex_env_ok : cmps_ok ex_env.
Proof. intros d. exact key_cmp_ok. Qed.

(** The source row 7 -> (1 2 3) is put, then updated to 7 -> (2 3 5). *)
Definition ex1 : out := put_multiple ex_env empty (Some 0) [7%N] [1%N; 2%N; 3%N] (three noover).
Definition ex2 : out := update_multiple ex_env (fst ex1) (Some 0) [7%N] [1%N; 2%N; 3%N] [7%N] [2%N; 3%N; 5%N] (three plain) 6 3.

Lemma distinct_nodup l : NoDup l -> distinct key_cmp l.
Proof.
  intros H. unfold distinct. induction H as [|x l A B IH]; constructor; [|exact IH]. rewrite Forall_forall. intros y Hy E.
  apply key_cmp_eq in E. congruence.
Qed.

Example ex1_ok : put_ok ex_env (Some 0) [7%N] [1%N; 2%N; 3%N] (three noover).
Proof.
  split; [repeat constructor; cbn; intuition discriminate|].
  intros d fl rows [[= <- <-]|[[= <- <-]|[[= <- <-]|[]]]]; cbn; intros [= <-]; apply distinct_nodup; repeat constructor; cbn; intuition discriminate.
Qed.
Example ex1_returns : snd ex1 = None /\ length (m_log (fst ex1)) = 1.
Proof. vm_compute. auto. Qed.
Example ex2_args : update_args ex_env (fst ex1) (Some 0) [7%N] [1%N; 2%N; 3%N] [7%N] [2%N; 3%N; 5%N] (three plain).
Proof.
  split; [repeat constructor; cbn; intuition discriminate|].
  intros d fl old new [[= <- <-]|[[= <- <-]|[[= <- <-]|[]]]]; cbn; intros [= <-] [= <-];
    (split; [apply distinct_nodup; repeat constructor; cbn; intuition discriminate|]);
    (split; [apply distinct_nodup; repeat constructor; cbn; intuition discriminate|]);
    intros y z E; apply key_cmp_eq in E; subst; reflexivity.
Qed.
Example ex2_empties : empty_stays_empty ex_env (fst ex1) (Some 0) [7%N] [1%N; 2%N; 3%N] [7%N] [2%N; 3%N; 5%N] (three plain).
Proof.
  intros d fl old new [[= <- <-]|[[= <- <-]|[[= <- <-]|[]]]]; cbn; intros [= <-] [= <-].
  - intros k [H|[]]; discriminate H.
  - intros k [E|[E|[E|[]]]] H; injection E as <-; try (vm_compute; reflexivity).
    exfalso. cbn in H. destruct H as [H|[H|[H|[]]]]; discriminate H.
  - intros k [H|[]]; discriminate H.
Qed.
Example ex2_agree : callbacks_agree ex_env (Some 0) [7%N] [1%N; 2%N; 3%N] (three plain).
Proof.
  intros d fl rows [[= <- <-]|[[= <- <-]|[[= <- <-]|[]]]]; cbn; intros [= <-]; eexists; (split; [reflexivity|]); intros x; cbn; tauto.
Qed.
(** Row 1 of dictionary 1 goes, row 5 comes, rows 2 and 3 are not touched. *)
Example ex2_returns : snd ex2 = None /\
  map (m_rows (fst ex2) 1) [[1%N]; [2%N]; [3%N]; [5%N]] = [None; Some []; Some []; Some []] /\
  m_rows (fst ex2) 0 [7%N] = Some [2%N; 3%N; 5%N] /\
  m_rows (fst ex2) 2 [1%N; 2%N; 3%N] = None /\ m_rows (fst ex2) 2 [2%N; 3%N; 5%N] = Some [7%N] /\
  map (fun r => match r with LPutMulti _ ds _ _ => (1, ds) | LDelMulti _ ds _ _ => (2, ds) | LDel d _ => (3, [d]) end) (skipn 1 (m_log (fst ex2))) = [(2, [1; 2]); (1, [0; 1; 2])].
Proof. vm_compute. auto 10. Qed.
Example ex3_returns : snd (del_multiple ex_env (fst ex2) (Some 0) [7%N] [2%N; 3%N; 5%N] (three plain)) = None /\
  snd (del_multiple ex_env (fst ex2) (Some 0) [7%N] [1%N] (three plain)) = Some ENotFound.
Proof. vm_compute. auto. Qed.

(** The same put again fails at once for the source row; a put of 8 -> (9 1) with
    DB_NOOVERWRITE fails in dictionary 1 because row 1 is there already.  By then the
    source row 8 and row 9 have been put, although the call returns DB_KEYEXIST, and
    nothing is logged: if the transaction commits, the rows are there until a crash,
    and recovery does not bring them back. *)
Theorem C49_put_error_refuted : exists e s src k v dbs s',
  cmps_ok e /\ put_ok e src k v dbs /\ put_multiple e s src k v dbs = (s', Some EKeyExist) /\
  m_rows s 0 k = None /\ m_rows s' 0 k = Some v /\ m_rows s 1 [9%N] = None /\ m_rows s' 1 [9%N] = Some [] /\ m_log s' = m_log s.
Proof.
  exists ex_env, (fst ex1), (Some 0), [8%N], [9%N; 1%N], (three noover).
  eexists. split; [exact ex_env_ok|]. split.
  - split; [repeat constructor; cbn; intuition discriminate|].
    intros d fl rows [[= <- <-]|[[= <- <-]|[[= <- <-]|[]]]]; cbn; intros [= <-]; apply distinct_nodup; repeat constructor; cbn; intuition discriminate.
  - repeat split; vm_compute; reflexivity.
Qed.

(** Without the condition on empty values: the rows of dictionary 1 are now
    (first byte, rest of the value).  Row 1 -> (2) is to become 1 -> () and row 3 is to
    go.  The call returns 0, but row 1 keeps its value; after a crash it is empty. *)
Definition odd_env : menv := mkMenv (fun _ => key_cmp)
  (fun _ _ k v => Some (match v with [] => [] | b :: w => ([b], w) :: match w with [] => [] | _ => [(3%N :: w, [])] end end))
  (fun _ _ k v => Some (match v with [] => [] | b :: w => [b] :: match w with [] => [] | _ => [3%N :: w] end end))
  (fun _ _ => true) (fun _ => true) 1%N 33%N.
Theorem C49_update_empty_value_refuted : exists e s src ok ov nk nv dbs s' l t,
  cmps_ok e /\ update_args e s src ok ov nk nv dbs /\ callbacks_agree e src ok ov dbs /\
  update_multiple e s src ok ov nk nv dbs (length dbs + length dbs) (length dbs) = (s', None) /\
  rows_of e src 1 nk nv = Some [([1%N], [])] /\ m_rows s' 1 [1%N] = Some [2%N] /\
  m_log s' = m_log s ++ l /\ replay e s l = Some t /\ m_rows t 1 [1%N] = Some [].
Proof.
  exists odd_env, (fst (put_multiple odd_env empty None [7%N] [1%N; 2%N] [(1, plain)])), None, [7%N], [1%N; 2%N], [7%N], [1%N], [(1, plain)].
  eexists. eexists. eexists. split; [intros d; exact key_cmp_ok|]. split.
  { split; [repeat constructor; intros []|]. intros d fl old new [[= <- <-]|[]]; cbn; intros [= <-] [= <-].
    split; [apply distinct_nodup; repeat constructor; cbn; intuition discriminate|].
    split; [apply distinct_nodup; repeat constructor; cbn; intuition discriminate|].
    intros y z E; apply key_cmp_eq in E; subst; reflexivity. }
  split; [intros d fl rows [[= <- <-]|[]]; cbn; intros [= <-]; eexists; (split; [reflexivity|]); intros x; cbn; tauto|].
  split; [vm_compute; reflexivity|]. split; [reflexivity|]. split; [vm_compute; reflexivity|].
  split; [vm_compute; reflexivity|]. split; [vm_compute; reflexivity|]. vm_compute. reflexivity.
Qed.

Print Assumptions C49_update.
Print Assumptions C49_update_error.
Print Assumptions C49_update_recovered.
Print Assumptions C49_put.
Print Assumptions C49_put_error_partial.
Print Assumptions C49_put_recovered.
Print Assumptions C49_del.
Print Assumptions C49_del_error.
Print Assumptions C49_del_recovered.
Print Assumptions C49_locks.
Print Assumptions C49_put_error_refuted.
Print Assumptions C49_update_empty_value_refuted.
