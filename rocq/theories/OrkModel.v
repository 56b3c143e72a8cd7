(** Every node of the tree carries oldest_referenced_xid_known (ft/node.h:211),
    the bound for implicit promotion: how it moves when the tree changes.

    The bounds are kept in a tree of the same shape beside the tree of FtModel.v;
    [X] is what is known about one bound (in DbModel.v: the look at the
    transaction manager it was read from).  Definitions only. *)
From Verif Require Import Base Bytes FtModel FtSpec.
Open Scope nat_scope.

(** One node: its oldest_referenced_xid_known and its children. *)
Inductive otree (X : Type) := ON (v : X) (ch : list (otree X)).
Arguments ON {X} v ch.

Section Ork.
Context {E : env} {X : Type}.
Local Notation otree := (otree X).

Definition oval (o : otree) : X := match o with ON v _ => v end.
Definition okids (o : otree) : list otree := match o with ON _ ch => ch end.
Definition oset (v : X) (o : otree) : otree := ON v (okids o).

(** The node reached by [path]. *)
Fixpoint onode (path : list nat) (o : otree) : option otree :=
  match path with
  | [] => Some o
  | i :: path => match nth_error (okids o) i with Some c => onode path c | None => None end
  end.

Fixpoint repl {A} (i : nat) (f : A -> list A) (l : list A) : list A :=
  match l, i with
  | [], _ => []
  | a :: l, O => f a ++ l
  | a :: l, S i => a :: repl i f l
  end.
Fixpoint repl2 {A} (i : nat) (f : A -> A -> list A) (l : list A) : list A :=
  match l, i with
  | a :: b :: l, O => f a b ++ l
  | a :: l, S i => a :: repl2 i f l
  | l, _ => l
  end.

(** Something is done to the node reached by [path]. *)
Fixpoint oat (path : list nat) (f : otree -> otree) (o : otree) : otree :=
  match path with
  | [] => f o
  | i :: path => ON (oval o) (repl i (fun c => [oat path f c]) (okids o))
  end.

(** Child [i] of the node reached by [path], with its buffer. *)
Definition child_at (path : list nat) (i : nat) (t : tree E) : option (list (ent E) * tree E) :=
  match node_at path [] t with
  | Some (_, TNode _ _ ch) => nth_error (seg_list ch) i
  | _ => None
  end.
Definition has_msgs (x : option (list (ent E) * tree E)) : bool :=
  match x with Some (buf, _) => negb (is_nil buf) | None => false end.
Definition at_leaf (x : option (list (ent E) * tree E)) : bool :=
  match x with Some (_, t) => is_leaf t | None => false end.

(** toku_bnc_flush_to_child (ft/ft-flusher.cc:1611): the child takes the parent's
    bound; called when there are messages or the child is a leaf (1445). *)
Definition oflush (i : nat) (go : bool) (o : otree) : otree :=
  ON (oval o) (repl i (fun c => [if go then oset (oval o) c else c]) (okids o)).

(** ftnode_finalize_split (ft/ft-flusher.cc:650-666): the new node takes over the
    bound; the children are divided as by ft_nonleaf_split (855-905). *)
Definition osplit (i : nat) (o : otree) : otree :=
  ON (oval o) (repl i (fun c => let n := Nat.div2 (length (okids c)) in
                                [ON (oval c) (firstn n (okids c)); ON (oval c) (skipn n (okids c))]) (okids o)).

(** ft_merge_child (ft/ft-flusher.cc:1243-1400): the buffers of the two are
    flushed first (flush_this_child, 985-1016); merging keeps node [a]; balancing
    two leaves merges them and splits the result (balance_leaf_nodes, 1087-1103). *)
Definition omerge (i : nat) (w : how) (ga gb leaf : bool) (o : otree) : otree :=
  ON (oval o) (repl2 i (fun a b =>
    let a' := if ga then oset (oval o) a else a in
    let b' := if gb then oset (oval o) b else b in
    if leaf then
      match w with
      | HNothing => [a'; b']
      | HMerge => [ON (oval a') (okids a' ++ okids b')]
      | HBalance _ _ => [a'; oset (oval a') b']
      end
    else [ON (oval a') (okids a' ++ okids b')]) (okids o)).

(** The bounds after action [a] of the tree.  [none]: TXNID_NONE, which a new node
    starts with (ft/node.cc:63; new root: ft_init_new_root, ft/ft-ops.cc:1365-1424).
    [newer]: inject_message_in_locked_node (ft/ft-ops.cc:1455-1459) makes the
    node's bound the newer one of its own and the one that came with the message. *)
Definition ostep (none : X) (newer : X -> X) (a : op E) (t : tree E) (o : otree) : otree :=
  match a with
  | OInject _ _ _ p => oat p (fun c => oset (newer (oval c)) c) o
  | OFlush _ p i => let x := child_at p i t in oat p (oflush i (has_msgs x || at_leaf x)) o
  | OSplit p i _ => oat p (osplit i) o
  | OMerge _ _ p i w =>
    let a := child_at p i t in
    oat p (omerge i w (has_msgs a) (has_msgs (child_at p (S i) t)) (at_leaf a)) o
  | ONewRoot => ON none [o]
  | _ => o
  end.

(** A new dictionary is one leaf. *)
Definition oinit (none : X) : otree := ON none [].
End Ork.
