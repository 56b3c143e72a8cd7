(** C23: inserting through the cached rightmost leaf. *)
From Verif Require Import Base Bytes LtSpec KOrd KeyCmp FtModel FtSpec FtSeg FtRows FtInv FtOps FtOps3 FtQuery FtSys FtShort FtScore PropsFt.
From Coq Require Import Sorted.
Open Scope nat_scope.
#[local] Existing Instance any_time.

(** The full claim, for one operation type [ty]: whatever the shortcut does,
    every later lookup that is answered both ways is answered alike. *)
Definition lookup {E : env} (is_del : L E -> bool) (g : G E) (k : bytes) (x : sstate (E:=E)) : option (option (L E)) :=
  match sstep is_del (SOp (OQuery g k)) x with Ok (_, ARow r) => Some r | _ => None end.
Definition shortcut_is_normal {E : env} (is_del : L E -> bool) (ty : mtype) (x : sstate (E:=E)) : Prop :=
  forall k a g keep path x1 x2 r, maybe_insert is_del ty k a g keep path x = Ok x1 ->
    sstep is_del (SOp (OInject g (Msg ty k a) keep path)) x = Ok (x2, r) ->
    forall g' k' v1 v2, lookup is_del g' k' x1 = Some v1 -> lookup is_del g' k' x2 = Some v2 -> v1 = v2.

Section Main.
Context {E : env} (ok : cmp_ok (kcmp E)) (is_del : L E -> bool).
Local Notation msg := (gmsg (A E)).
Local Notation L := (L E).
Local Notation G := (G E).

(** Missing in the theorems below: the shortcut with an empty first or last
    basement node in the rightmost leaf, operations other than plain inserts,
    and a broadcast that arrives between reading seqinsert_score and locking
    the leaf; the full claim is false for all three (below).  Otherwise the
    shortcut may be used at any time, in any interleaving with flushes, splits,
    merges, writes, evictions and queries. *)
Theorem C23_insert_partial (h : list msg) (x x' : sstate) k a g keep path :
  sreach is_del h x -> edges (right_leaf (s_tree (x_st x))) ->
  maybe_insert is_del MInsert k a g keep path x = Ok x' -> sreach is_del (h ++ [Msg MInsert k a]) x'.
Proof.
  intros R ED Q. unfold maybe_insert in Q.
  assert (SL : forall y h', h' = h -> sreach is_del h' y -> (rdo (x', _) <- sstep is_del (SOp (OInject g (Msg MInsert k a) keep path)) y; Ok x') = Ok x' -> sreach is_del (h ++ [Msg MInsert k a]) x').
  { intros y h' -> Ry Z. destruct (sstep is_del (SOp (OInject g (Msg MInsert k a) keep path)) y) as [[y' r]| |] eqn:ST; try discriminate. injection Z as <-.
    exact (sreach_step is_del h y (SOp (OInject g (Msg MInsert k a) keep path)) _ _ Ry Logic.I ST). }
  destruct (sstep is_del (SShort false k a g) x) as [[x1 r]| |] eqn:ST; [|eapply SL; eauto|discriminate].
  pose proof (sreach_step is_del h x (SShort false k a g) _ _ R ED ST) as R1. destruct r as [| |r]; cbn [sinjected] in R1; rewrite ?app_nil_r in R1; try (eapply SL; eauto; fail).
  destruct r; rewrite ?app_nil_r in R1; [injection Q as <-; exact R1|eapply SL; eauto|eapply SL; eauto].
Qed.

(** Every lookup sees the inserts that went through the shortcut exactly like
    the messages that were injected from the root. *)
Theorem C23_lookup_partial (h : list msg) (x x' : sstate) (g : G) (k : bytes) r :
  sreach is_del h x -> sstep is_del (SOp (OQuery g k)) x = Ok (x', r) -> exists v, r = ARow v /\ outcome k h v.
Proof.
  intros R ST. pose proof (sstep_ok ok is_del h x (SOp (OQuery g k)) (sreach_ok ok is_del h x R) Logic.I) as K. rewrite ST in K. apply K.
Qed.

(** DB_NOOVERWRITE through the shortcut (toku_ft_insert_unique): it answers
    DB_KEYEXIST exactly when there is a row that is not deleted. *)
Theorem C23_unique_partial (h : list msg) (x x' : sstate) k a (g : G) s :
  sreach is_del h x -> edges (right_leaf (s_tree (x_st x))) -> sstep is_del (SShort true k a g) x = Ok (x', AShort s) -> s <> NotDone ->
  exists v, outcome k h v /\ (s = KeyExist <-> exists r, v = Some r /\ is_del r = false).
Proof.
  intros R ED ST ND. pose proof (sstep_ok ok is_del h x (SShort true k a g) (sreach_ok ok is_del h x R) ED) as K. rewrite ST in K. destruct K as (_ & s0 & [= <-] & K).
  destruct (K eq_refl ND) as (v & O & EL). exists v. split; [exact O|]. unfold exists_live in EL. split.
  - intros ->. destruct v as [r|]; [|discriminate]. exists r. split; [reflexivity|]. destruct (is_del r); [discriminate|reflexivity].
  - intros (r & -> & D). rewrite D in EL. destruct s; [discriminate|reflexivity|congruence].
Qed.

Theorem C23_no_assertion_fails_partial (h : list msg) (x : sstate) (o : sop) : sreach is_del h x -> careful o x -> sstep is_del o x <> Fail.
Proof. intros R CF F. pose proof (sstep_ok ok is_del h x o (sreach_ok ok is_del h x R) CF) as K. rewrite F in K. exact K. Qed.
End Main.
Print Assumptions C23_insert_partial.
Print Assumptions C23_lookup_partial.
Print Assumptions C23_unique_partial.
Print Assumptions C23_no_assertion_fails_partial.

(** ** A dictionary of numbers: insert writes, insert-no-overwrite keeps the row
    that is there, delete deletes, update and broadcast update add. *)
Definition Reg : env := Env key_cmp N unit N
  (fun _ m r => match m_type m with
                | MInsert => Some (m_arg m)
                | MInsertNoOverwrite => match r with Some v => Some v | None => Some (m_arg m) end
                | MDeleteAny => None
                | MUpdate | MUpdateBroadcastAll => match r with Some v => Some (v + m_arg m)%N | None => None end
                | _ => r
                end)
  (fun _ => true) (fun _ _ => false) (fun _ v => Some v).
Definition never (_ : L Reg) := false.

(** Runs of operations that are known to be careful. *)
Definition has_rowsb (x : slot Reg) : bool := match s_mem x with Some b => negb (is_nil (b_rows b)) | None => negb (is_nil (s_disk x)) end.
Definition edgesb (l : leaf Reg) : bool :=
  match hd_error (seg_list (l_parts l)) with Some x => has_rowsb x | None => true end &&
  match hd_error (rev (seg_list (l_parts l))) with Some x => has_rowsb x | None => true end.
Lemma edgesb_ok l : edgesb l = true -> edges l.
Proof.
  assert (HB : forall x, has_rowsb x = true -> has_rows x). { intros x. unfold has_rowsb, has_rows. destruct (s_mem x) as [b|]; [destruct (b_rows b)|destruct (s_disk x)]; cbn; congruence. }
  unfold edgesb. intros Q. apply andb_prop in Q. destruct Q as (Q1 & Q2). split; intros x Z; rewrite Z in *; auto.
Qed.
Fixpoint srun (os : list (sop (E:=Reg))) (x : sstate (E:=Reg)) : option (sstate (E:=Reg) * list (gmsg N)) :=
  match os with
  | [] => Some (x, [])
  | o :: os =>
    if match o with SOp _ => true | SShort _ _ _ _ => edgesb (right_leaf (s_tree (x_st x))) end then
      match sstep (E:=Reg) never o x with
      | Ok (x', r) => match srun os x' with Some (y, h) => Some (y, sinjected (E:=Reg) o r ++ h) | None => None end
      | _ => None
      end
    else None
  end.
Lemma srun_reach os : forall h x y h', sreach (E:=Reg) never h x -> srun os x = Some (y, h') -> sreach (E:=Reg) never (h ++ h') y.
Proof.
  induction os as [|o os IH]; intros h x y h' R Q; cbn [srun] in Q.
  - injection Q as <- <-. rewrite app_nil_r. exact R.
  - assert (CF : match o with SOp _ => true | SShort _ _ _ _ => edgesb (right_leaf (s_tree (x_st x))) end = true -> careful (E:=Reg) o x) by (destruct o; [exact (fun _ => Logic.I)|apply edgesb_ok]).
    destruct (match o with SOp _ => true | SShort _ _ _ _ => edgesb (right_leaf (s_tree (x_st x))) end); [|discriminate]. specialize (CF eq_refl).
    destruct (sstep (E:=Reg) never o x) as [[x1 r]| |] eqn:ST; try discriminate. destruct (srun os x1) as [[y1 h1]|] eqn:RN; try discriminate. injection Q as <- <-.
    rewrite app_assoc. eapply IH; [|exact RN]. exact (sreach_step _ _ _ _ _ _ R CF ST).
Qed.

(** Two rows, split into two leaves; then the last row is written again and
    again until the score is high enough. *)
Definition put t (k v : N) path : sop (E:=Reg) := SOp (OInject (E:=Reg) tt (Msg t (K k) v) false path).
Definition warm : list (sop (E:=Reg)) :=
  [put MInsert 1 10 []; put MInsert 5 50 []; put MInsert 7 70 [];
   SOp (ONewRoot (E:=Reg)); SOp (OSplit (E:=Reg) [] 0 (SEvenly 0 0)); SOp (OUnlock (E:=Reg) [])]
  ++ List.repeat (put MInsert 7 70 [1]) 100.

(** The hypotheses of the theorems above are met: through the shortcut, a new
    last row, an overwritten last row, and a refused unique insert. *)
Definition short unique (k v : N) : sop (E:=Reg) := SShort (E:=Reg) unique (K k) v tt.
Example C23_case : exists x x' h, sreach (E:=Reg) never h x /\ edges (right_leaf (s_tree (x_st x))) /\
  lookup (E:=Reg) never tt (K 7) x = Some (Some 71%N) /\ lookup (E:=Reg) never tt (K 8) x = Some (Some 80%N) /\
  sstep (E:=Reg) never (short true 8 0) x = Ok (x', AShort KeyExist).
Proof.
  assert (Q : match srun (warm ++ [short false 7 71; short true 8 80]) sinit with
              | Some (x, _) => edgesb (right_leaf (s_tree (x_st x))) = true /\ lookup (E:=Reg) never tt (K 7) x = Some (Some 71%N) /\ lookup (E:=Reg) never tt (K 8) x = Some (Some 80%N) /\
                               match sstep (E:=Reg) never (short true 8 0) x with Ok (_, AShort KeyExist) => True | _ => False end
              | None => False
              end) by (vm_compute; repeat split).
  destruct (srun (warm ++ [short false 7 71; short true 8 80]) sinit) as [[x h]|] eqn:RN; [|contradiction]. destruct Q as (Q1 & Q2 & Q3 & Q4).
  destruct (sstep (E:=Reg) never (short true 8 0) x) as [[x' [| |[| |]]]| |] eqn:ST; try contradiction.
  exists x, x', h. split; [apply (srun_reach _ [] sinit x h (sreach_init _) RN)|]. split; [apply edgesb_ok; exact Q1|]. split; [exact Q2|]. split; [exact Q3|exact ST].
Qed.

(** ** The full claim is false: three counterexamples *)

(** Insert-no-overwrite (DB_NOOVERWRITE_NO_ERROR) of an existing key overwrites
    the row when it goes through the shortcut. *)
Theorem C23_no_overwrite_refuted : exists h x, sreach (E:=Reg) never h x /\ edges (right_leaf (s_tree (x_st x))) /\
  lookup (E:=Reg) never tt (K 7) x = Some (Some 70%N) /\ ~ shortcut_is_normal (E:=Reg) never MInsertNoOverwrite x /\
  exists x', maybe_insert (E:=Reg) never MInsertNoOverwrite (K 7) 99%N tt false [1] x = Ok x' /\ lookup (E:=Reg) never tt (K 7) x' = Some (Some 99%N).
Proof.
  assert (Q : match srun warm sinit with
              | Some (x, _) => edgesb (right_leaf (s_tree (x_st x))) = true /\ lookup (E:=Reg) never tt (K 7) x = Some (Some 70%N) /\
                  match maybe_insert (E:=Reg) never MInsertNoOverwrite (K 7) 99%N tt false [1] x with Ok x' => lookup (E:=Reg) never tt (K 7) x' = Some (Some 99%N) | _ => False end /\
                  match sstep (E:=Reg) never (put MInsertNoOverwrite 7 99 [1]) x with Ok (x', _) => lookup (E:=Reg) never tt (K 7) x' = Some (Some 70%N) | _ => False end
              | None => False
              end) by (vm_compute; repeat split).
  destruct (srun warm sinit) as [[x h]|] eqn:RN; [|contradiction]. destruct Q as (Q1 & Q2 & Q3 & Q4). exists h, x.
  split; [apply (srun_reach _ [] sinit x h (sreach_init _) RN)|]. split; [apply edgesb_ok; exact Q1|]. split; [exact Q2|].
  destruct (maybe_insert (E:=Reg) never MInsertNoOverwrite (K 7) 99%N tt false [1] x) as [x1| |] eqn:M1; try contradiction.
  destruct (sstep (E:=Reg) never (put MInsertNoOverwrite 7 99 [1]) x) as [[x2 r]| |] eqn:M2; try contradiction. split; [|eauto].
  intros SN. specialize (SN _ _ _ _ _ _ _ _ M1 M2 tt (K 7) _ _ Q3 Q4). discriminate.
Qed.

(** A plain insert is lost: the rightmost leaf has two basement nodes, the rows
    of the last one are deleted, and the last remaining row is written again.
    The shortcut puts it into the last basement node, lookups search the first. *)
Definition emptied : list (sop (E:=Reg)) :=
  [put MInsert 1 10 []; put MInsert 5 50 []; put MInsert 7 70 [];
   SOp (ONewRoot (E:=Reg)); SOp (OSplit (E:=Reg) [] 0 (SEvenly 0 0)); SOp (OUnlock (E:=Reg) []); SOp (OWriteLeaf (E:=Reg) None None [1] [1])]
  ++ List.repeat (put MInsert 7 70 [1]) 100 ++ [put MDeleteAny 7 0 [1]].
Theorem C23_insert_refuted : exists h x, sreach (E:=Reg) never h x /\
  lookup (E:=Reg) never tt (K 5) x = Some (Some 50%N) /\ ~ shortcut_is_normal (E:=Reg) never MInsert x /\
  exists x', maybe_insert (E:=Reg) never MInsert (K 5) 99%N tt false [1] x = Ok x' /\ lookup (E:=Reg) never tt (K 5) x' = Some (Some 50%N).
Proof.
  assert (Q : match srun emptied sinit with
              | Some (x, _) => lookup (E:=Reg) never tt (K 5) x = Some (Some 50%N) /\
                  match maybe_insert (E:=Reg) never MInsert (K 5) 99%N tt false [1] x with Ok x' => lookup (E:=Reg) never tt (K 5) x' = Some (Some 50%N) | _ => False end /\
                  match sstep (E:=Reg) never (put MInsert 5 99 [1]) x with Ok (x', _) => lookup (E:=Reg) never tt (K 5) x' = Some (Some 99%N) | _ => False end
              | None => False
              end) by (vm_compute; repeat split).
  destruct (srun emptied sinit) as [[x h]|] eqn:RN; [|contradiction]. destruct Q as (Q2 & Q3 & Q4). exists h, x.
  split; [apply (srun_reach _ [] sinit x h (sreach_init _) RN)|]. split; [exact Q2|].
  destruct (maybe_insert (E:=Reg) never MInsert (K 5) 99%N tt false [1] x) as [x1| |] eqn:M1; try contradiction.
  destruct (sstep (E:=Reg) never (put MInsert 5 99 [1]) x) as [[x2 r]| |] eqn:M2; try contradiction. split; [|eauto].
  intros SN. specialize (SN _ _ _ _ _ _ _ _ M1 M2 tt (K 5) _ _ Q3 Q4). discriminate.
Qed.

(** The score is read before the leaf is locked.  A broadcast message that is
    injected at the root in between has the smaller message number: rows of the
    basement node that the shortcut writes to never see it. *)
Theorem C23_race_refuted : exists h x m x1 x2, sreach (E:=Reg) never h x /\
  sstep (E:=Reg) never (SOp (OInject (E:=Reg) tt m false [])) x = Ok (x1, ANone) /\
  edges (right_leaf (s_tree (x_st x1))) /\
  sstep (E:=Reg) never (short false 8 80) (SState (x_st x1) (x_score x)) = Ok (x2, AShort Inserted) /\
  lookup (E:=Reg) never tt (K 7) x2 = Some (Some 70%N) /\ dict (E:=Reg) tt (K 7) (h ++ [m; Msg MInsert (K 8) 80%N]) None = Some 71%N.
Proof.
  set (m := Msg MUpdateBroadcastAll (K 0) 1%N : gmsg N).
  assert (Q : match srun warm sinit with
              | Some (x, h) =>
                match sstep (E:=Reg) never (SOp (OInject (E:=Reg) tt m false [])) x with
                | Ok (x1, ANone) => edgesb (right_leaf (s_tree (x_st x1))) = true /\
                  match sstep (E:=Reg) never (short false 8 80) (SState (x_st x1) (x_score x)) with
                  | Ok (x2, AShort Inserted) => lookup (E:=Reg) never tt (K 7) x2 = Some (Some 70%N) /\ dict (E:=Reg) tt (K 7) (h ++ [m; Msg MInsert (K 8) 80%N]) None = Some 71%N
                  | _ => False
                  end
                | _ => False
                end
              | None => False
              end) by (vm_compute; repeat split).
  destruct (srun warm sinit) as [[x h]|] eqn:RN; [|contradiction]. destruct (sstep (E:=Reg) never (SOp (OInject (E:=Reg) tt m false [])) x) as [[x1 [| |]]| |] eqn:S1; try contradiction.
  destruct Q as (Q1 & Q). destruct (sstep (E:=Reg) never (short false 8 80) _) as [[x2 [| |[| |]]]| |] eqn:S2; try contradiction. destruct Q as (Q2 & Q3).
  exists h, x, m, x1, x2. split; [apply (srun_reach _ [] sinit x h (sreach_init _) RN)|]. split; [exact S1|]. split; [apply edgesb_ok; exact Q1|]. split; [exact S2|]. split; [exact Q2|exact Q3].
Qed.
Print Assumptions C23_case.
Print Assumptions C23_no_overwrite_refuted.
Print Assumptions C23_insert_refuted.
Print Assumptions C23_race_refuted.
