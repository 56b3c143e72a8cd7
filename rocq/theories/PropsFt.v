(** C20, C21: the fractal tree is a dictionary, every message takes effect
    exactly once per row. *)
From Verif Require Import Base Bytes LtSpec KOrd KeyCmp FtModel FtSpec FtSeg FtRows FtInv FtOps FtOps3 FtQuery FtSys.
From Coq Require Import Sorted.
Open Scope nat_scope.
#[local] Existing Instance any_time.

Section Main.
Context {E : env} (ok : cmp_ok (kcmp E)).
Local Notation msg := (gmsg (A E)).
Local Notation L := (L E).
Local Notation G := (G E).

(** C20.  [h] are the messages injected so far, [s] the tree after any
    interleaving of injections, flushes, splits, merges, rebalances, writes,
    evictions and earlier queries: a lookup returns what the messages about the
    key, each applied once and in injection order, make of it. *)
Theorem C20_lookup (h : list msg) (s s' : state E) (g : G) (k : bytes) (r : option (option L)) :
  reach h s -> step (OQuery g k) s = Ok (s', r) -> exists v, r = Some v /\ outcome k h v.
Proof. intros R ST. pose proof (step_ok ok h s (OQuery g k) (reach_ok ok h s R)) as K. rewrite ST in K. apply K. Qed.

(** No assertion of the modelled code fails, in any execution. *)
Theorem C20_no_assertion_fails (h : list msg) (s : state E) (o : op E) : reach h s -> step o s <> Fail.
Proof. intros R F. pose proof (step_ok ok h s o (reach_ok ok h s R)) as K. rewrite F in K. exact K. Qed.

(** A lookup is answered at once unless a flusher holds a node. *)
Theorem C20_lookup_answered (h : list msg) (s : state E) (g : G) (k : bytes) :
  reach h s -> idle (s_tree s) -> exists s' v, step (OQuery g k) s = Ok (s', Some v) /\ outcome k h v.
Proof.
  intros R ID. pose proof (reach_ok ok h s R) as (H & hh & EH & HO & W).
  pose proof (query_now ok H (s_top s) g k HO hh None None [] (s_tree s) Logic.I W (conj Logic.I Logic.I) ID) as NB.
  pose proof (C20_no_assertion_fails h s (OQuery g k) R) as NF. pose proof (fun s' r => C20_lookup h s s' g k r R) as LK.
  cbn [step] in *. rewrite (wf_height _ _ _ _ _ _ _ W) in *.
  destruct (query hh g k None None [] (s_tree s)) as [[[t an] v]| |]; try congruence.
  destruct (LK _ _ eq_refl) as (v' & [= <-] & O). eauto.
Qed.

(** Two readings of "what the messages make of it".  First: leaf entries that
    do not look at the transaction manager and are not garbage collected. *)
Theorem C20_dictionary (g0 : G) (h : list msg) (s s' : state E) (g : G) (k : bytes) (r : option (option L)) :
  (forall g1 m x, le_apply E g1 m x = le_apply E g0 m x) -> (forall g1 v, le_gc E g1 v = Some v) ->
  reach h s -> step (OQuery g k) s = Ok (s', r) -> r = Some (dict g0 k h None).
Proof.
  intros GA GG R ST. destruct (C20_lookup h s s' g k r R ST) as (v & -> & O). f_equal. clear R ST.
  assert (DA : forall h1 m x, dict g0 k (h1 ++ [m]) x = dict g0 k [m] (dict g0 k h1 x)).
  { induction h1 as [|a h1 IH]; intros m x; [reflexivity|]. cbn [app dict]. rewrite IH. reflexivity. }
  induction O as [|h m r O IH NC|h m r g1 O IH C|h v g1 O IH].
  - reflexivity.
  - rewrite DA, <- IH. cbn [dict]. rewrite concerns_iff in NC. unfold once in NC.
    destruct (m_type m) eqn:T; try (exfalso; apply NC; left; reflexivity);
      (destruct (keqb (kcmp E) k (m_key m)) eqn:Q; [exfalso; apply NC; right; apply keqb_true; exact Q|reflexivity]).
  - rewrite DA, <- IH. cbn [dict].
    assert (EF : effect g1 m r = effect g0 m r). { unfold effect. destruct (m_type m), r; rewrite ?GA; reflexivity. }
    rewrite concerns_iff in C. unfold once in C. rewrite EF.
    destruct (m_type m) eqn:T; try reflexivity;
      (destruct C as [C|C]; [discriminate|]; apply keqb_true in C; rewrite C; reflexivity).
  - rewrite GG. exact IH.
Qed.

(** Second: up to any notion [same] of "no reader can tell the difference" that
    messages respect and garbage collection preserves. *)
Theorem C20_dictionary_up_to (same : option L -> option L -> Prop) (g0 : G) (h : list msg) (s s' : state E) (g : G) (k : bytes) (r : option (option L)) :
  same None None ->
  (forall g1 m x y, same x y -> same (effect g1 m x) (effect g0 m y)) ->
  (forall g1 v y, same (Some v) y -> same (le_gc E g1 v) y) ->
  reach h s -> step (OQuery g k) s = Ok (s', r) -> exists v, r = Some v /\ same v (dict g0 k h None).
Proof.
  intros S0 SA SG R ST. destruct (C20_lookup h s s' g k r R ST) as (v & -> & O). exists v. split; [reflexivity|]. clear R ST.
  assert (DA : forall h1 m x, dict g0 k (h1 ++ [m]) x = dict g0 k [m] (dict g0 k h1 x)).
  { induction h1 as [|a h1 IH]; intros m x; [reflexivity|]. cbn [app dict]. rewrite IH. reflexivity. }
  induction O as [|h m r O IH NC|h m r g1 O IH C|h v g1 O IH]; auto.
  - rewrite DA. cbn [dict]. rewrite concerns_iff in NC. unfold once in NC.
    destruct (m_type m) eqn:T; try (exfalso; apply NC; left; reflexivity);
      (destruct (keqb (kcmp E) k (m_key m)) eqn:Q; [exfalso; apply NC; right; apply keqb_true; exact Q|exact IH]).
  - rewrite DA. cbn [dict]. specialize (SA g1 m _ _ IH).
    rewrite concerns_iff in C. unfold once in C.
    destruct (m_type m) eqn:T; try exact SA;
      (destruct C as [C|C]; [discriminate|]; apply keqb_true in C; rewrite C; exact SA).
Qed.
End Main.
Print Assumptions C20_lookup.
Print Assumptions C20_no_assertion_fails.
Print Assumptions C20_lookup_answered.
Print Assumptions C20_dictionary.
Print Assumptions C20_dictionary_up_to.

(** ** C21 *)

(** Rows that remember every message applied to them: a row is the list of the
    messages' numbers, [m_arg].  Nothing is idempotent here: a message applied
    twice is there twice. *)
Definition Log : env := Env key_cmp (list N) unit N
  (fun _ m r => Some (match r with None => [] | Some l => l end ++ [m_arg m])) (fun _ => false) (fun _ _ => true) (fun _ v => Some v).

(** The messages for [k] or for all keys, from the first one on that makes the
    row. *)
Definition about (k : bytes) (m : gmsg N) : bool :=
  match m_type m with
  | MInsert | MInsertNoOverwrite | MUpdate | MDeleteAny | MAbortAny | MCommitAny => keqb key_cmp k (m_key m)
  | _ => true
  end.
Definition makes (k : bytes) (m : gmsg N) : bool :=
  match m_type m with MInsert | MInsertNoOverwrite | MUpdate => keqb key_cmp k (m_key m) | _ => false end.
Fixpoint from_first {X} (p : X -> bool) (l : list X) : list X :=
  match l with [] => [] | x :: l' => if p x then l else from_first p l' end.
Definition applied (k : bytes) (h : list (gmsg N)) : list N := map m_arg (filter (about k) (from_first (makes k) h)).

Theorem C21_exactly_once (h : list (gmsg N)) (s s' : state Log) (k : bytes) (r : option (option (list N))) :
  reach (E:=Log) h s -> step (E:=Log) (OQuery (E:=Log) tt k) s = Ok (s', r) ->
  r = Some (match applied k h with [] => None | l => Some l end).
Proof.
  intros R ST. rewrite (C20_dictionary (E:=Log) key_cmp_ok tt h s s' tt k r); auto. f_equal. clear.
  assert (EF : forall m l, effect (E:=Log) tt m (Some l) = Some (l ++ [m_arg m])) by (intros m l; unfold effect; destruct (m_type m); reflexivity).
  assert (S1 : forall h l, dict (E:=Log) tt k h (Some l) = Some (l ++ map m_arg (filter (about k) h))).
  { induction h0 as [|m h0 IH]; intros l; cbn [dict filter map].
    - rewrite app_nil_r. reflexivity.
    - rewrite EF. unfold about at 1. change (kcmp Log) with key_cmp. destruct m as [ty ky ar]. cbn [m_type m_key m_arg]. destruct ty, (keqb key_cmp k ky); rewrite IH; cbn [map]; rewrite <- ?app_assoc; reflexivity. }
  assert (EN : forall m, effect (E:=Log) tt m None = match m_type m with MInsert | MInsertNoOverwrite | MUpdate => Some [m_arg m] | _ => None end)
    by (intros m; unfold effect; destruct (m_type m); reflexivity).
  unfold applied. induction h as [|m h IH]; [reflexivity|]. cbn [dict from_first]. rewrite EN. unfold makes at 1. change (kcmp Log) with key_cmp.
  destruct m as [ty ky ar]. cbn [m_type m_key m_arg]. destruct ty, (keqb key_cmp k ky) eqn:Q; try exact IH;
    rewrite S1; cbn [filter]; unfold about at 2; cbn [m_type m_key]; rewrite ?Q; reflexivity.
Qed.
Print Assumptions C21_exactly_once.

(** In particular nothing is applied twice and nothing out of order. *)
Theorem C21_never_twice (h : list (gmsg N)) (s s' : state Log) (k : bytes) (l : list N) :
  reach (E:=Log) h s -> NoDup (map m_arg h) -> step (E:=Log) (OQuery (E:=Log) tt k) s = Ok (s', Some (Some l)) -> NoDup l.
Proof.
  intros R ND ST. pose proof (C21_exactly_once h s s' k _ R ST) as Q. injection Q as Q.
  destruct (applied k h) as [|a l0] eqn:AP; [discriminate|]. injection Q as ->. rewrite <- AP. unfold applied. clear - ND.
  assert (N1 : NoDup (map m_arg (from_first (makes k) h))).
  { induction h as [|m h IH]; cbn; [constructor|]. destruct (makes k m); [exact ND|]. apply IH. inversion ND; auto. }
  revert N1. generalize (from_first (makes k) h). induction l as [|m l IH]; cbn; [auto|]. intros N1. inversion N1 as [|? ? NI N2]; subst.
  destruct (about k m); auto. cbn. constructor; auto. intros I. apply NI. apply in_map_iff in I. destruct I as (x & <- & Ix). apply filter_In in Ix. apply in_map. tauto.
Qed.
Print Assumptions C21_never_twice.

(** ** Examples: the hypotheses are met *)
Fixpoint run {E : env} (os : list (op E)) (s : state E) : option (state E * list (option (L E))) :=
  match os with
  | [] => Some (s, [])
  | o :: os => match step o s with
               | Ok (s', r) => match run os s' with
                               | Some (s'', rs) => Some (s'', match r with Some v => v :: rs | None => rs end)
                               | None => None
                               end
               | _ => None
               end
  end.
Lemma run_reach {E : env} (os : list (op E)) : forall h s s' rs, reach h s -> run os s = Some (s', rs) -> reach (h ++ flat_map injected os) s'.
Proof.
  induction os as [|o os IH]; intros h s s' rs R Q; cbn in *.
  - injection Q as <- <-. rewrite app_nil_r. exact R.
  - destruct (step o s) as [[s1 r]| |] eqn:ST; try discriminate. destruct (run os s1) as [[s2 rs']|] eqn:Q'; try discriminate. injection Q as <- <-.
    rewrite app_assoc. eapply IH; [|exact Q']. eapply reach_step; eauto.
Qed.

(** Rows 1, 2, 3, then a split of the root leaf; messages for key 1 stay in the
    root's buffer; the query applies them to the leaf; the leaf is written and
    evicted, the message flushed, a broadcast injected, the leaves merged. *)
Definition K (x : N) : bytes := [x].
Definition ex_ops : list (op Log) :=
  let put t (x i : N) := OInject (E:=Log) tt (Msg t (K x) i) false in
  [ put MInsert 1%N 101%N []; put MInsert 2%N 102%N []; put MInsert 3%N 103%N [];
    ONewRoot (E:=Log); OSplit (E:=Log) [] 0 (SEvenly 0 0); OUnlock (E:=Log) [];
    OWriteLeaf (E:=Log) None None [0] []; OWriteLeaf (E:=Log) None None [1] [1];
    put MUpdate 1%N 104%N []; put MInsert 3%N 105%N [1]; put MInsert 3%N 106%N [];
    OQuery (E:=Log) tt (K 3%N); OQuery (E:=Log) tt (K 1%N); OMoveStale (E:=Log) [] 0;
    put MUpdateBroadcastAll 0%N 107%N []; OEvict (E:=Log) [0] 0; OQuery (E:=Log) tt (K 1%N); OQuery (E:=Log) tt (K 2%N);
    OLockChain (E:=Log) []; OFlush (E:=Log) tt [] 0; OMerge (E:=Log) tt tt [] 0 HMerge; OUnlock (E:=Log) [];
    put MDeleteAny 1%N 108%N []; OQuery (E:=Log) tt (K 1%N); OQuery (E:=Log) tt (K 9%N) ].
Definition ex_result := [Some [103; 105; 106]; Some [101; 104]; Some [101; 104; 107]; Some [102; 107]; Some [101; 104; 107; 108]; None]%N.
Fixpoint idleb {E : env} (t : tree E) : bool :=
  match t with
  | TLeaf _ => true
  | TNode _ lk ch => free lk &&
    (fix go (s : seg (list (ent E) * tree E)) : bool :=
       match s with One x => idleb (snd x) | Cons x _ s => idleb (snd x) && go s end) ch
  end.
Lemma idleb_ok {E : env} : forall t : tree E, idleb t = true -> idle t.
Proof.
  fix IH 1. intros [l|mx lk ch]; [reflexivity|]. cbn [idleb idle]. intros Q. apply andb_prop in Q. destruct Q as (Q1 & Q2).
  split; [destruct lk; [reflexivity|discriminate|discriminate]|]. revert Q2. clear Q1.
  revert ch. fix IHc 1. intros [[bu t]|[bu t] p s]; cbn [snd]; intros Q.
  - apply IH. exact Q.
  - apply andb_prop in Q. destruct Q as (Q1 & Q2). split; [apply IH; exact Q1|apply IHc; exact Q2].
Qed.

Example ex_run : exists s rs, run ex_ops init = Some (s, rs) /\ rs = ex_result /\ reach (E:=Log) (flat_map injected ex_ops) s /\ idle (s_tree s).
Proof.
  assert (Q : match run ex_ops init with Some (s, rs) => rs = ex_result /\ idleb (s_tree s) = true | None => False end) by (vm_compute; split; reflexivity).
  destruct (run ex_ops init) as [[s rs]|] eqn:RN; [|contradiction]. destruct Q as (Q1 & Q2). exists s, rs. split; [reflexivity|]. split; [exact Q1|].
  split; [|apply idleb_ok; exact Q2]. apply (run_reach ex_ops [] init s rs); [apply reach_init|exact RN].
Qed.

(** The hypotheses of C20_dictionary_up_to are met by equality. *)
Example ex_up_to : (forall g1 m x y, x = y -> effect (E:=Log) g1 m x = effect (E:=Log) tt m y) /\ (forall g1 v y, Some v = y -> le_gc Log g1 v = y).
Proof. split; [intros [] m x y ->; reflexivity|intros [] v y <-; reflexivity]. Qed.
