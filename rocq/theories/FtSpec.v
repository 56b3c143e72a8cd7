(** What the dictionary means, without nodes, buffers or message numbers: for
    one key, the row is what the messages that concern the key make of it, one
    after the other in the order in which they were injected. *)
From Verif Require Import Base Bytes LtSpec KOrd FtModel.
Open Scope nat_scope.

Section Spec.
Context {E : env}.
Local Notation L := (L E).
Local Notation G := (G E).
Local Notation msg := (gmsg (A E)).

(** What kind of message is for one key, and which message is for key [k]. *)
Definition keyed (m : msg) : Prop :=
  In (m_type m) [MInsert; MInsertNoOverwrite; MUpdate; MDeleteAny; MAbortAny; MCommitAny].
Definition concerns (k : bytes) (m : msg) : Prop := keyed m -> keq (kcmp E) k (m_key m).

(** What a message does to the row of a key it concerns; [None]: no row.
    Deleting, committing and aborting need a row, so do broadcasts.  Commit-all
    and optimize leave clean rows alone, commit and abort of one transaction
    leave rows alone that have nothing of it. *)
Definition effect (g : G) (m : msg) (r : option L) : option L :=
  match m_type m, r with
  | (MInsert | MInsertNoOverwrite | MUpdate), _ => le_apply E g m r
  | _, None => None
  | (MDeleteAny | MAbortAny | MCommitAny | MUpdateBroadcastAll), Some v => le_apply E g m (Some v)
  | (MCommitBroadcastAll | MOptimize), Some v =>
    if le_is_clean E v then Some v else le_apply E g m (Some v)
  | (MCommitBroadcastTxn | MAbortBroadcastTxn), Some v =>
    if le_has_xids E v m then le_apply E g m (Some v) else Some v
  end.

(** [outcome k h r]: the messages [h], in this order, each one exactly once,
    leave the row [r] for key [k].  The state of the transaction manager at the
    moment of an application is arbitrary, and a row may be garbage collected
    at any time: what that means to a reader is the subject of the
    properties about leaf entries. *)
Inductive outcome (k : bytes) : list msg -> option L -> Prop :=
| out_nil : outcome k [] None
| out_skip h m r : outcome k h r -> ~ concerns k m -> outcome k (h ++ [m]) r
| out_msg h m r g : outcome k h r -> concerns k m -> outcome k (h ++ [m]) (effect g m r)
| out_gc h v g : outcome k h (Some v) -> outcome k h (le_gc E g v).

(** What is known about when the information in a [g] was gathered.  [early g n]:
    the bounds in [g] were read before message [n] was sent; [late g n]: the
    cloned transaction manager state in [g], if there is one, is from after
    message [n] was sent. *)
Class timing (E : env) := Timing {
  early : FtModel.G E -> N -> Prop;
  late : FtModel.G E -> N -> Prop;
  early_up : forall g n n', early g n -> (n <= n')%N -> early g n'
}.

(** [course k h r gs]: like [outcome] for numbered messages, with the
    information [gs] that was used, newest first, all of it in time: the bounds
    were always read before the message at hand was sent, and so they were for
    all applications and collections before; the state was cloned after the
    messages that have made the row. *)
Inductive course {TM : timing E} (k : bytes) : list (N * msg) -> option L -> list G -> Prop :=
| co_nil : course k [] None []
| co_skip h n m r gs : course k h r gs -> ~ concerns k m -> course k (h ++ [(n, m)]) r gs
| co_msg h n m r g gs : course k h r gs -> concerns k m ->
    (forall x, In x (g :: gs) -> early x n) -> late g n -> course k (h ++ [(n, m)]) (effect g m r) (g :: gs)
| co_gc h v g gs : course k h (Some v) gs ->
    (forall n m, In (n, m) h -> concerns k m -> late g n) -> course k h (le_gc E g v) (g :: gs).

(** The same with nothing left open, for leaf entries on which garbage
    collection does nothing and which do not look at the transaction manager. *)
Fixpoint dict (g : G) (k : bytes) (h : list msg) (r : option L) : option L :=
  match h with
  | [] => r
  | m :: h => dict g k h (match m_type m with
                          | MInsert | MInsertNoOverwrite | MUpdate | MDeleteAny | MAbortAny | MCommitAny =>
                            if keqb (kcmp E) k (m_key m) then effect g m r else r
                          | _ => effect g m r
                          end)
  end.
End Spec.

(** The node reached by [path] from [t], with the messages in the buffers above
    it, nearest first. *)
Fixpoint node_at {E : env} (path : list nat) (pend : list (ent E)) (t : tree E) : option (list (ent E) * tree E) :=
  match path with
  | [] => Some (pend, t)
  | i :: path =>
    match t with
    | TLeaf _ => None
    | TNode _ _ ch =>
      match nth_error (seg_list ch) i with
      | Some x => node_at path (fst x ++ pend) (snd x)
      | None => None
      end
    end
  end.

(** The way to the leaf of [k] in a tree of height [h]. *)
Fixpoint path_to {E : env} (h : nat) (k : bytes) (t : tree E) : list nat :=
  match t, h with
  | TNode _ _ ch, S h =>
    match PivotModel.which_child (kcmp E) (seg_pivots ch) k with
    | Some i => i :: match nth_error (seg_list ch) i with Some x => path_to h k (snd x) | None => [] end
    | None => []
    end
  | _, _ => []
  end.

(** The messages [h] with their numbers, counting from the one after [n]
    (FtModel's [OInject] takes the next number each time). *)
Fixpoint numbered {A : Type} (n : N) (h : list A) : list (N * A) :=
  match h with
  | [] => []
  | m :: h => ((n + 1)%N, m) :: numbered (n + 1) h
  end.

Section Law.
Context {E : env} {TM : timing E}.
(** [g] may be used at a node with the messages [pend] above it: its bounds were
    read before any of them was sent, and its clone is not older. *)
Definition in_time (g : G E) (pend : list (ent E)) : Prop :=
  forall e, In e pend -> early g (e_msn e) /\ late g (e_msn e).
Definition in_time_at (g : G E) (path : list nat) (s : state E) : Prop :=
  forall pend t, node_at path [] (s_tree s) = Some (pend, t) -> in_time g pend.
(** The same for garbage collection, which is not for a message: its bounds
    were read before the next message, its clone is from after the last one. *)
Definition gc_in_time (o : option (G E)) (path : list nat) (s : state E) : Prop :=
  forall g, o = Some g -> early g (s_top s + 1) /\ (forall n, (n <= s_top s)%N -> late g n) /\ in_time_at g path s.

(** An action uses information that fits. *)
Definition lawful (o : op E) (s : state E) : Prop :=
  match o with
  | OInject g _ _ _ => early g (s_top s + 1) /\ late g (s_top s + 1)
  | OQuery g k => in_time_at g (path_to (height (s_tree s)) k (s_tree s)) s
  | OFlush g p i => in_time_at g (p ++ [i]) s
  | OMerge g g' p i _ => in_time_at g (p ++ [i]) s /\ in_time_at g' (p ++ [S i]) s
  | OWriteLeaf gm gd p _ => gc_in_time gm p s /\ gc_in_time gd p s
  | _ => True
  end.
End Law.

(** Nothing is known. *)
Definition any_time (E : env) : timing E :=
  Timing E (fun _ _ => True) (fun _ _ => True) (fun _ _ _ _ _ => Logic.I).
