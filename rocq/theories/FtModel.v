(** The fractal tree: messages in buffers of inner nodes, rows in basement
    nodes of leaves, and every action that moves or applies a message.

    What is abstract.  A leaf entry ([L]), what one message does to one leaf
    entry ([le_apply], the subject of the MVCC model in MvccModel.v), the state
    of the transaction manager used for garbage collection ([G]) and the parts
    of a message other than type and key ([A]: value, transaction ids) are
    parameters.  The key comparison is a parameter as well.

    Simplifications, for the whole file.
    - A node is in the tree as a value, not behind a block number; the
      blocktable and the cachetable are other parts of the model.
    - Sizes, workdone counters, statistics and flow counters only decide *when*
      an action is taken; here every action may be taken at any time.  Where
      the code picks a place by size (split point, cuts of a rebalance) the
      action carries the place as an argument.
    - Node locks.  [lk] is the exclusive lock on an inner node that a flusher
      holds over several steps.  Leaves are only locked within one step.
    - MSNs are unbounded (the code's are 64 bits and start at 2^62,
      ft/ft-internal.h).
    - Partial eviction of an inner node's child buffer (compression in memory)
      does not change it and is left out. *)
From Verif Require Import Base Bytes KOrd PivotModel.
Open Scope nat_scope.

(** Result of a step: [Fail] is a failed assertion (the process aborts),
    [Block] means that the code cannot be at this point now: the lock is not
    available, or the callers never ask for this. *)
Inductive res (X : Type) := Ok (x : X) | Block | Fail.
Arguments Ok {X} x. Arguments Block {X}. Arguments Fail {X}.

Notation "'rdo' x <- e ; f" :=
  (match e with Ok x => f | Block => Block | Fail => Fail end)
  (at level 200, x pattern, e at level 100, f at level 200, right associativity).
Notation "'when' b ; f" := (if b then f else Block)
  (at level 200, b at level 100, f at level 200, right associativity).
Notation "'check' b ; f" := (if b then f else Fail)
  (at level 200, b at level 100, f at level 200, right associativity).

(** An option that must not be [None]. *)
Definition must {X} (o : option X) : res X := match o with Some x => Ok x | None => Fail end.

(** ** Children separated by pivots (ft/node.h:160-220: bp[], pivotkeys) *)
Inductive seg (C : Type) := One (a : C) | Cons (a : C) (p : bytes) (s : seg C).
Arguments One {C} a. Arguments Cons {C} a p s.

Definition bound := option bytes.

Section Seg.
Context {C : Type}.

Fixpoint seg_pivots (s : seg C) : list bytes :=
  match s with One _ => [] | Cons _ p s => p :: seg_pivots s end.

Fixpoint seg_list (s : seg C) : list C :=
  match s with One a => [a] | Cons a _ s => a :: seg_list s end.

Fixpoint seg_app (s : seg C) (p : bytes) (s' : seg C) : seg C :=
  match s with One a => Cons a p s' | Cons a q s => Cons a q (seg_app s p s') end.

Fixpoint seg_map {D} (f : C -> D) (s : seg C) : seg D :=
  match s with One a => One (f a) | Cons a p s => Cons (f a) p (seg_map f s) end.

(** Replace child [i]; [f] gets the bounds of the child's keys and returns what
    takes its place, with a further result. *)
Fixpoint seg_upd {R} (lo hi : bound) (i : nat) (f : bound -> bound -> C -> res (seg C * R)) (s : seg C)
  : res (seg C * R) :=
  match s, i with
  | One a, O => f lo hi a
  | One _, S _ => Block
  | Cons a p s, O => rdo (s', r) <- f lo (Some p) a; Ok (seg_app s' p s, r)
  | Cons a p s, S i => rdo (s', r) <- seg_upd (Some p) hi i f s; Ok (Cons a p s', r)
  end.

(** Replace children [i] and [i+1]. *)
Fixpoint seg_upd2 (lo hi : bound) (i : nat) (f : bound -> bound -> C -> bytes -> C -> res (seg C)) (s : seg C)
  : res (seg C) :=
  match s, i with
  | Cons a p (One b), O => f lo hi a p b
  | Cons a p (Cons b q s), O => rdo s' <- f lo (Some q) a p b; Ok (seg_app s' q s)
  | Cons a p s, S i => rdo s' <- seg_upd2 (Some p) hi i f s; Ok (Cons a p s')
  | One _, _ => Block
  end.

(** Cut after [n] children. *)
Fixpoint seg_cut (n : nat) (s : seg C) : res (seg C * bytes * seg C) :=
  match s, n with
  | One _, _ | _, O => Block
  | Cons a p s, S O => Ok (One a, p, s)
  | Cons a p s, S n => rdo (s1, k, s2) <- seg_cut n s; Ok (Cons a p s1, k, s2)
  end.
End Seg.

(** Message types (ft/msg.h:50-75); FT_NONE is never created and
    FT_OPTIMIZE_FOR_UPGRADE is applied like FT_OPTIMIZE. *)
Inductive mtype :=
| MInsert | MInsertNoOverwrite | MUpdate | MDeleteAny | MAbortAny | MCommitAny
| MCommitBroadcastAll | MCommitBroadcastTxn | MAbortBroadcastTxn | MOptimize | MUpdateBroadcastAll.

(** struct ft_msg (ft/msg.h): type, key and the rest. *)
Record gmsg (A : Type) := Msg { m_type : mtype; m_key : bytes; m_arg : A }.
Arguments Msg {A}. Arguments m_type {A}. Arguments m_key {A}. Arguments m_arg {A}.

(** What is abstract: see the head of this file.
    - [le_apply]: toku_le_apply_msg through toku_ft_bn_apply_msg_once
      (ft/node.cc:1142-1290), for updates do_update (1292-1375): the leaf entry
      found, or [None], before and after.
    - [le_is_clean], [le_has_xids]: ft/ule.cc.
    - [le_gc]: toku_le_garbage_collect (ft/ule.cc:623-700). *)
Record env := Env {
  kcmp : bytes -> bytes -> comparison;
  L : Type; G : Type; A : Type;
  le_apply : G -> gmsg A -> option L -> option L;
  le_is_clean : L -> bool;
  le_has_xids : L -> gmsg A -> bool;
  le_gc : G -> L -> option L }.

Section Ft.
Context {E : env}.
Local Notation kcmp := (kcmp E).
Local Notation L := (L E).
Local Notation G := (G E).
Local Notation msg := (gmsg (A E)).
Local Notation le_apply := (le_apply E).
Local Notation le_is_clean := (le_is_clean E).
Local Notation le_has_xids := (le_has_xids E).
Local Notation le_gc := (le_gc E).

(** ft_msg_type_applies_once (ft/msg.h:83-108); the other types apply to all
    (ft/msg.h:111-136). *)
Definition once (m : msg) : bool :=
  match m_type m with
  | MInsert | MInsertNoOverwrite | MUpdate | MDeleteAny | MAbortAny | MCommitAny => true
  | _ => false
  end.

(** ** Basement node rows (ft/bndata.h), sorted by key *)
Definition rows := list (bytes * L).

(** bn_data::find_zero with toku_msg_leafval_heaviside (ft/node.cc:1423-1432). *)
Fixpoint rows_find (k : bytes) (r : rows) : option L :=
  match r with
  | [] => None
  | (x, v) :: r => if keqb kcmp k x then Some v else rows_find k r
  end.

(** Overwriting keeps the stored key (bn_data::get_space_for_overwrite,
    ft/bndata.cc:387-415), inserting puts it in order. *)
Fixpoint rows_set (k : bytes) (v : L) (r : rows) : rows :=
  match r with
  | [] => [(k, v)]
  | (x, w) :: r' =>
    match kcmp k x with
    | Lt => (k, v) :: r
    | Eq => (x, v) :: r'
    | Gt => (x, w) :: rows_set k v r'
    end
  end.

Fixpoint rows_del (k : bytes) (r : rows) : rows :=
  match r with
  | [] => []
  | (x, w) :: r' => if keqb kcmp k x then r' else (x, w) :: rows_del k r'
  end.

Definition rows_put (k : bytes) (o : option L) (r : rows) : rows :=
  match o with Some v => rows_set k v r | None => rows_del k r end.

(** A broadcast visits every stored row (ft/node.cc:1485-1575, 1622-1667). *)
Fixpoint rows_each (f : L -> option L) (r : rows) : rows :=
  match r with
  | [] => []
  | (x, w) :: r => match f w with Some w' => (x, w') :: rows_each f r | None => rows_each f r end
  end.

(** toku_ft_bn_apply_msg (ft/node.cc:1377-1675).  The seqinsert shortcut of
    FT_INSERT (1402-1412) finds the same place and is left out. *)
Definition bn_apply_msg (g : G) (m : msg) (r : rows) : rows :=
  let k := m_key m in
  match m_type m with
  | MInsert | MInsertNoOverwrite | MUpdate => rows_put k (le_apply g m (rows_find k r)) r
  | MDeleteAny | MAbortAny | MCommitAny =>
    match rows_find k r with
    | Some v => rows_put k (le_apply g m (Some v)) r
    | None => r
    end
  | MCommitBroadcastAll | MOptimize =>
    rows_each (fun v => if le_is_clean v then Some v else le_apply g m (Some v)) r
  | MCommitBroadcastTxn | MAbortBroadcastTxn =>
    rows_each (fun v => if le_has_xids v m then le_apply g m (Some v) else Some v) r
  | MUpdateBroadcastAll => rows_each (fun v => le_apply g m (Some v)) r
  end.

(** ** Nodes *)

(** A message in a buffer.  [Fresh] and [Marked] are in fresh_message_tree
    ([Marked]: iterate_and_mark_range has marked it), [Stale] in
    stale_message_tree; broadcasts are in broadcast_list whatever their tag
    (ft/ft-internal.h, struct ftnode_nonleaf_childinfo; toku_bnc_insert_msg,
    ft/node.cc:1680-1720). *)
Inductive tag := Fresh | Marked | Stale.
Record ent := Ent { e_msn : N; e_msg : msg; e_tag : tag }.

(** [Chain]: the node was reached through empty buffers only, or it is the
    root, or its parent was held like this (message injection, promotion, the
    background flusher, merges from the root, hot optimize).  [Cleaner]: the
    cleaner thread picked the node at random (ft/ft-flusher.cc:1726-1770); it
    destroys basement nodes before it flushes. *)
Inductive lock := Free | Chain | Cleaner.

(** BASEMENTNODE (ft/node.h): rows, max_msn_applied,
    stale_ancestor_messages_applied. *)
Record bn := Bn { b_rows : rows; b_max : N; b_flag : bool }.

(** A basement node in memory, or not; and what the last written version of
    the leaf has for it (used only while the leaf is clean). *)
Record slot := Slot { s_mem : option bn; s_disk : rows }.

(** A leaf: max_msn_applied_to_node_on_disk, dirty bit, basement nodes. *)
Record leaf := Leaf { l_max : N; l_dirty : bool; l_parts : seg slot }.

(** An inner node: max_msn_applied_to_node_on_disk, lock, children with their
    buffers (message_buffer in insertion order). *)
Inductive tree :=
| TLeaf (l : leaf)
| TNode (mx : N) (lk : lock) (ch : seg (list ent * tree)).

(** ** Putting a message into a node *)

(** toku_ft_leaf_apply_msg for one basement node (ft/node.cc:2108-2126,
    2128-2143).  All basement nodes must be in memory (2083). *)
Definition slot_put (g : G) (n : N) (m : msg) (s : slot) : slot :=
  match s_mem s with
  | None => s
  | Some b => if (b_max b <? n)%N
              then Slot (Some (Bn (bn_apply_msg g m (b_rows b)) n (b_flag b))) (s_disk s)
              else s
  end.

Definition in_mem (s : slot) : bool := match s_mem s with Some _ => true | None => false end.

(** toku_ft_leaf_apply_msg (ft/node.cc:2069-2149) with target_childnum -1. *)
Definition leaf_put (g : G) (n : N) (m : msg) (l : leaf) : res leaf :=
  check (forallb in_mem (seg_list (l_parts l)));
  let mx := if (l_max l <? n)%N then n else l_max l in
  if once m then
    rdo i <- must (which_child kcmp (seg_pivots (l_parts l)) (m_key m));
    match seg_upd None None i (fun _ _ s => Ok (One (slot_put g n m s), tt)) (l_parts l) with
    | Ok (p, _) => Ok (Leaf mx true p)
    | _ => Fail
    end
  else Ok (Leaf mx true (seg_map (slot_put g n m) (l_parts l))).

(** toku_bnc_insert_msg with is_fresh (ft/node.cc:1680-1720): a message that
    is not fresh goes to the stale tree. *)
Definition demote (t : tag) : tag := match t with Fresh => Fresh | _ => Stale end.
Definition ins (n : N) (m : msg) (t : tag) (c : list ent * tree) : list ent * tree :=
  (fst c ++ [Ent n m (demote t)], snd c).

(** toku_ftnode_put_msg (ft/node.cc:2022-2064), ft_nonleaf_put_msg
    (ft/node.cc:1848-1874), ft_nonleaf_msg_once_to_child (1753-1775),
    ft_nonleaf_msg_all (1832-1842). *)
Definition node_put (g : G) (n : N) (m : msg) (tg : tag) (t : tree) : res tree :=
  match t with
  | TLeaf l => rdo l' <- leaf_put g n m l; Ok (TLeaf l')
  | TNode mx lk ch =>
    check (mx <? n)%N;
    if once m then
      rdo i <- must (which_child kcmp (seg_pivots ch) (m_key m));
      match seg_upd None None i (fun _ _ c => Ok (One (ins n m tg c), tt)) ch with
      | Ok (ch', _) => Ok (TNode n lk ch')
      | _ => Fail
      end
    else Ok (TNode n lk (seg_map (ins n m tg) ch))
  end.

(** toku_bnc_flush_to_child (ft/ft-flusher.cc:1562-1640): every message of the
    buffer in insertion order. *)
Fixpoint put_all (g : G) (es : list ent) (t : tree) : res tree :=
  match es with
  | [] => Ok t
  | e :: es => rdo t' <- node_put g (e_msn e) (e_msg e) (e_tag e) t; put_all g es t'
  end.

(** ** Reading a leaf *)

(** A basement node read from disk: setup_available_ftnode_partition and
    toku_create_empty_bn (ft/serialize/ft_node-serialize.cc:1271-1280, 1015). *)
Definition slot_fetch (mx : N) (s : slot) : slot :=
  match s_mem s with
  | Some _ => s
  | None => Slot (Some (Bn (s_disk s) mx false)) (s_disk s)
  end.

(** bring_node_fully_into_memory (ft/ft-flusher.cc:971-984) and pins with
    bfe.create_for_full_read. *)
Definition fetch_all (t : tree) : tree :=
  match t with
  | TLeaf l => TLeaf (Leaf (l_max l) (l_dirty l) (seg_map (slot_fetch (l_max l)) (l_parts l)))
  | _ => t
  end.

(** maybe_destroy_child_blbs (ft/ft-flusher.cc:133-151); [mx] is the parent's
    max_msn_applied_to_node_on_disk. *)
Definition slot_destroy (mx : N) (s : slot) : slot :=
  match s_mem s with
  | Some b => if (mx <? b_max b)%N then Slot None (s_disk s) else s
  | None => s
  end.
Definition destroy_blbs (mx : N) (t : tree) : tree :=
  match t with
  | TLeaf l =>
    if (1 <? length (seg_list (l_parts l))) && negb (l_dirty l)
    then TLeaf (Leaf (l_max l) (l_dirty l) (seg_map (slot_destroy mx) (l_parts l)))
    else t
  | _ => t
  end.

(** What toku_ft_flush_some_child and flush_this_child do to the child before
    they use it (ft/ft-flusher.cc:996-1001, 1430-1437, 1473). *)
Definition pin_child (lk : lock) (mx : N) (t : tree) : tree :=
  fetch_all (match lk with Cleaner => destroy_blbs mx t | _ => t end).

Definition set_dirty (t : tree) : tree :=
  match t with TLeaf l => TLeaf (Leaf (l_max l) true (l_parts l)) | _ => t end.

Definition lock_of (t : tree) : lock := match t with TLeaf _ => Free | TNode _ lk _ => lk end.
Definition set_lock (lk : lock) (t : tree) : tree :=
  match t with TLeaf _ => t | TNode mx _ ch => TNode mx lk ch end.
Definition free (lk : lock) : bool := match lk with Free => true | _ => false end.
Definition is_leaf (t : tree) : bool := match t with TLeaf _ => true | _ => false end.

(** ** Flush: toku_ft_flush_some_child (ft/ft-flusher.cc:1402-1500), steps up to
    the actual flush.  [t] is the locked parent.  The buffer is detached even
    when it is empty if the child is a leaf (1446); nothing happens to an
    inner child when it is empty.  The child stays locked: whether the flusher
    goes on below it is up to the next steps. *)
Definition flush_child (g : G) (i : nat) (lo hi : bound) (t : tree) : res tree :=
  match t with
  | TLeaf _ => Block
  | TNode mx lk ch =>
    when negb (free lk);
    rdo (ch', _) <- seg_upd lo hi i (fun _ _ c =>
      when free (lock_of (snd c));
      rdo c' <- put_all g (fst c) (set_dirty (pin_child lk mx (snd c)));
      Ok (One ([], set_lock lk c'), tt)) ch;
    Ok (TNode mx lk ch')
  end.

(** ** Split *)

Definition last_key (r : rows) : res bytes :=
  match rev r with (k, _) :: _ => Ok k | [] => Fail end.

Definition nrows (x : slot) : nat := match s_mem x with Some b => length (b_rows b) | None => 0 end.
Definition all_rows (s : seg slot) : rows :=
  flat_map (fun x => match s_mem x with Some b => b_rows b | None => [] end) (seg_list s).

(** enum split_mode (ft/ft-internal.h).  For SPLIT_EVENLY the arguments are the
    row at which half of the bytes are reached (basement node [i], row [j]):
    sizes are not modelled, so it may be any row. *)
Inductive smode := SLeftHeavy | SRightHeavy | SEvenly (i j : nat).

(** ftleaf_get_split_loc (ft/ft-flusher.cc:572-632): num_left_bns and
    num_left_les. *)
Definition split_loc (w : smode) (s : seg slot) : res (nat * nat) :=
  let n := length (seg_list s) in
  let cnt i := match nth_error (seg_list s) i with Some x => nrows x | None => 0 end in
  match w with
  | SLeftHeavy => if cnt (n - 1) =? 0 then Ok (n - 1, cnt (n - 2)) else Ok (n, cnt (n - 1))
  | SRightHeavy => Ok (1, if cnt 0 =? 0 then 0 else 1)
  | SEvenly i j =>
    when (i <? n) && (j <? cnt i);
    if (S i =? n) && (S j =? cnt i) then
      if 1 <? S j then Ok (S i, j)
      else if 1 <? S i then Ok (i, cnt (i - 1))
      else Fail
    else Ok (S i, S j)
  end.

(** ftleaf_split (ft/ft-flusher.cc:668-853), the basement nodes: [nb] is
    num_left_bns, [nl] is num_left_les; the rows of a new basement node keep
    the source's max_msn_applied.  With all basement nodes on the left, the
    right leaf has one new, empty basement node (max_msn_applied 0).  When the
    cut is on a boundary the code leaves the pivot behind the left leaf's last
    basement node in place (833): it is never looked at, and every user of the
    end of the pivots (replace_at, delete_at, append, split_at in
    ft/pivotkeys.cc) copes with it, so here it is dropped. *)
Fixpoint leaf_cut (nb nl : nat) (s : seg slot) : res (seg slot * bytes * seg slot) :=
  match nb with
  | O => Fail
  | S nb' =>
    match nb', s with
    | S _, One _ => Fail
    | S _, Cons a p s =>
      rdo (s1, k, s2) <- leaf_cut nb' nl s; Ok (Cons a p s1, k, s2)
    | O, _ =>
      let a := match s with One a => a | Cons a _ _ => a end in
      match s_mem a with
      | None => Fail
      | Some b =>
        check (nl <=? length (b_rows b));
        if (nl =? 0) || (nl =? length (b_rows b)) then
          match s with
          | Cons a p s => Ok (One a, p, s)
          | One a => rdo k <- last_key (b_rows b);
                     Ok (One a, k, One (Slot (Some (Bn [] 0%N false)) []))
          end
        else
          let a1 := Slot (Some (Bn (firstn nl (b_rows b)) (b_max b) (b_flag b))) [] in
          let a2 := Slot (Some (Bn (skipn nl (b_rows b)) (b_max b) false)) [] in
          rdo k <- last_key (firstn nl (b_rows b));
          match s with
          | One _ => Ok (One a1, k, One a2)
          | Cons _ p s => Ok (One a1, k, Cons a2 p s)
          end
      end
    end
  end.

(** A leaf is only split when it has more than one row
    (toku_ftnode_get_leaf_reactivity, ft/node.cc:1035-1046;
    maybe_merge_pinned_leaf_nodes, ft/ft-flusher.cc:1122-1123). *)
Definition leaf_split (w : smode) (s : seg slot) : res (seg slot * bytes * seg slot) :=
  when (1 <? length (all_rows s));
  rdo (nb, nl) <- split_loc w s; leaf_cut nb nl s.

(** ft_split_child (ft/ft-flusher.cc:916-969), ftnode_finalize_split (650-666),
    ft_nonleaf_split (855-905), handle_split_of_child (437-543). *)
Definition split_node (w : smode) (t : tree) : res (tree * bytes * tree) :=
  match t with
  | TLeaf l =>
    rdo (s1, k, s2) <- leaf_split w (l_parts l);
    Ok (TLeaf (Leaf (l_max l) true s1), k, TLeaf (Leaf (l_max l) true s2))
  | TNode mx lk ch =>
    rdo (s1, k, s2) <- seg_cut (Nat.div2 (length (seg_list ch))) ch;
    Ok (TNode mx lk s1, k, TNode mx lk s2)
  end.

Definition unbounded (b : bound) : bool := match b with None => true | _ => false end.
Definition is_chain (lk : lock) : bool := match lk with Chain => true | _ => false end.

(** The uneven modes are only used while a message is being promoted, on the
    first and the last leaf (process_maybe_reactive_child,
    ft/ft-ops.cc:1537-1640). *)
Definition mode_ok (w : smode) (lk : lock) (lo hi : bound) : bool :=
  match w with
  | SLeftHeavy => is_chain lk && unbounded hi
  | SRightHeavy => is_chain lk && unbounded lo
  | SEvenly _ _ => true
  end.

(** Splitting needs an empty buffer above the child (ft/ft-flusher.cc:926). *)
Definition split_child (i : nat) (w : smode) (lo hi : bound) (t : tree) : res tree :=
  match t with
  | TLeaf _ => Block
  | TNode mx lk ch =>
    when negb (free lk);
    rdo (ch', _) <- seg_upd lo hi i (fun lo hi c =>
      when is_nil (fst c) && mode_ok w lk lo hi;
      rdo (t1, k, t2) <- split_node w (set_dirty (pin_child lk mx (snd c)));
      Ok (Cons ([], t1) k (One ([], t2)), tt)) ch;
    Ok (TNode mx lk ch')
  end.

(** ** Merge *)

(** Drop the last basement node of [a] if it is empty, otherwise put a pivot
    behind its last row (merge_leaf_nodes, ft/ft-flusher.cc:1022-1085); [s2]
    are b's basement nodes. *)
Fixpoint leaf_join (s1 s2 : seg slot) : res (seg slot) :=
  match s1 with
  | One a =>
    match s_mem a with
    | None => Fail
    | Some b => match b_rows b with
                | [] => Ok s2
                | _ => rdo k <- last_key (b_rows b); Ok (Cons a k s2)
                end
    end
  | Cons a p (One z) =>
    match s_mem z with
    | None => Fail
    | Some b => match b_rows b with
                | [] => Ok (Cons a p s2)
                | _ => rdo k <- last_key (b_rows b); Ok (Cons a p (Cons z k s2))
                end
    end
  | Cons a p s => rdo s' <- leaf_join s s2; Ok (Cons a p s')
  end.

(** What maybe_merge_pinned_leaf_nodes decides by size
    (ft/ft-flusher.cc:1108-1140). *)
Inductive how := HNothing | HMerge | HBalance (i j : nat).

(** maybe_merge_pinned_nodes (ft/ft-flusher.cc:1180-1232),
    maybe_merge_pinned_nonleaf_nodes (1142-1178), balance_leaf_nodes
    (1087-1106); [p] is the pivot between the two. *)
Definition merge_nodes (w : how) (a : tree) (p : bytes) (b : tree) (lk : lock) : res (seg (list ent * tree)) :=
  match a, b with
  | TLeaf la, TLeaf lb =>
    let mx := N.max (l_max la) (l_max lb) in
    match w with
    | HNothing => Ok (Cons ([], a) p (One ([], b)))
    | HMerge => rdo s <- leaf_join (l_parts la) (l_parts lb); Ok (One ([], TLeaf (Leaf mx true s)))
    | HBalance i j =>
      when (1 <? length (all_rows (l_parts la) ++ all_rows (l_parts lb)));
      rdo s <- leaf_join (l_parts la) (l_parts lb);
      rdo (s1, k, s2) <- leaf_split (SEvenly i j) s;
      Ok (Cons ([], TLeaf (Leaf mx true s1)) k (One ([], TLeaf (Leaf mx true s2))))
    end
  | TNode ma _ sa, TNode mb _ sb => Ok (One ([], TNode (N.max ma mb) lk (seg_app sa p sb)))
  | _, _ => Fail
  end.

(** flush_this_child is only called for a buffer that has something
    (ft/ft-flusher.cc:1295-1300); it dirties the child (1006-1007). *)
Definition flush_some (g : G) (buf : list ent) (t : tree) : res tree :=
  if is_nil buf then Ok t else put_all g buf (set_dirty t).

(** ft_merge_child (ft/ft-flusher.cc:1243-1400).  The cleaner does not merge
    leaves: it starts again from the root (ct_maybe_merge_child,
    ft/ft-flusher.cc:335-415). *)
Definition merge_children (g g' : G) (i : nat) (w : how) (lo hi : bound) (t : tree) : res tree :=
  match t with
  | TLeaf _ => Block
  | TNode mx lk ch =>
    when negb (free lk);
    rdo ch' <- seg_upd2 lo hi i (fun _ _ a p b =>
      when free (lock_of (snd a)) && free (lock_of (snd b)) && (is_chain lk || negb (is_leaf (snd a)));
      rdo ta <- flush_some g (fst a) (fetch_all (snd a));
      rdo tb <- flush_some g' (fst b) (fetch_all (snd b));
      merge_nodes w ta p tb lk) ch;
    Ok (TNode mx lk ch')
  end.

(** ** Writing and evicting a leaf *)

Definition max_of (s : seg slot) : N :=
  fold_left (fun a x => match s_mem x with Some b => N.max a (b_max b) | None => a end) (seg_list s) 0%N.

(** toku_ftnode_leaf_rebalance (ft/node.cc:832-1011): all rows in order, cut
    into basement nodes of the sizes [cuts]; a basement node is never cut off
    empty.  [gd] is the garbage collection of the written copy
    (toku_ftnode_leaf_run_gc, ft/node.cc:1991-2020), [None]: none. *)
Definition gc_rows (o : option G) (r : rows) : rows :=
  match o with None => r | Some g => rows_each (le_gc g) r end.
Definition new_slot (gd : option G) (mx : N) (r : rows) : slot :=
  Slot (Some (Bn r mx false)) (gc_rows gd r).
Fixpoint rebalance (gd : option G) (mx : N) (cuts : list nat) (r : rows) : res (seg slot) :=
  match cuts with
  | [] => Ok (One (new_slot gd mx r))
  | n :: cuts =>
    when (0 <? n) && (n <? length r);
    rdo k <- last_key (firstn n r);
    rdo s <- rebalance gd mx cuts (skipn n r);
    Ok (Cons (new_slot gd mx (firstn n r)) k s)
  end.

(** A dirty leaf is written: by toku_ftnode_clone_callback
    (ft/ft-ops.cc:629-691), which rebalances the leaf in memory, and
    toku_ftnode_flush_callback (693-760) for the clone, which garbage collects
    only the clone ([gd]); or by toku_ftnode_flush_callback on the leaf itself,
    which garbage collects ([gm]) and then rebalances
    (ft/serialize/ft_node-serialize.cc).  Afterwards the leaf is clean. *)
Definition write_leaf (gm gd : option G) (cuts : list nat) (t : tree) : res tree :=
  match t with
  | TNode _ _ _ => Block
  | TLeaf l =>
    when l_dirty l;
    check (forallb in_mem (seg_list (l_parts l)));
    let mx := max_of (l_parts l) in
    rdo s <- rebalance gd mx cuts (gc_rows gm (all_rows (l_parts l)));
    Ok (TLeaf (Leaf mx false s))
  end.

(** toku_evict_bn_from_memory (ft/node.cc:154-163) through
    toku_ftnode_pe_callback (ft/ft-ops.cc:930-1040), only in clean leaves.
    Evicting a whole clean leaf and reading it again is the same for all of its
    basement nodes. *)
Definition evict_bn (j : nat) (t : tree) : res tree :=
  match t with
  | TNode _ _ _ => Block
  | TLeaf l =>
    when negb (l_dirty l);
    rdo (s, _) <- seg_upd None None j (fun _ _ x => Ok (One (Slot None (s_disk x)), tt)) (l_parts l);
    Ok (TLeaf (Leaf (l_max l) (l_dirty l) s))
  end.

(** toku_ftnode_pf_callback (ft/ft-ops.cc:1206-1250) for one basement node. *)
Definition fetch_bn (j : nat) (t : tree) : res tree :=
  match t with
  | TNode _ _ _ => Block
  | TLeaf l =>
    rdo (s, _) <- seg_upd None None j (fun _ _ x => Ok (One (slot_fetch (l_max l) x), tt)) (l_parts l);
    Ok (TLeaf (Leaf (l_max l) (l_dirty l) s))
  end.

(** toku_ft_bnc_move_messages_to_stale (ft/node.cc:785-790) for child [i]: when
    the node is pinned for writing, cloned or written. *)
Definition move_stale (i : nat) (t : tree) : res tree :=
  match t with
  | TLeaf _ => Block
  | TNode mx lk ch =>
    rdo (ch', _) <- seg_upd None None i (fun _ _ c =>
      Ok (One (map (fun e => Ent (e_msn e) (e_msg e) (match e_tag e with Marked => Stale | t => t end)) (fst c), snd c), tt)) ch;
    Ok (TNode mx lk ch')
  end.

(** ** Query *)

Definition in_rngb (lo hi : bound) (k : bytes) : bool :=
  match lo with None => true | Some l => kltb kcmp l k end &&
  match hi with None => true | Some h => kleb kcmp k h end.

(** find_bounds_within_message_tree (ft/node.cc:305-380): the messages of a
    tree with a key in the basement node's range. *)
Definition stale_in (lo hi : bound) (e : ent) : bool :=
  once (e_msg e) && match e_tag e with Stale => true | _ => false end && in_rngb lo hi (m_key (e_msg e)).
Definition fresh_in (lo hi : bound) (e : ent) : bool :=
  once (e_msg e) && match e_tag e with Stale => false | _ => true end && in_rngb lo hi (m_key (e_msg e)).
Definition bcast (e : ent) : bool := negb (once (e_msg e)).

(** do_bn_apply_msg (ft/node.cc:216-255). *)
Definition do_bn_apply (g : G) (mx : N) (e : ent) (r : rows) : rows :=
  if (mx <? e_msn e)%N then bn_apply_msg g (e_msg e) r else r.
Definition apply_list (g : G) (mx : N) (es : list ent) (r : rows) : rows :=
  fold_left (fun r e => do_bn_apply g mx e r) es r.

(** The order of the message trees, (key, msn), for entries in msn order: a
    stable sort by key (toku_msg_buffer_key_msn_cmp, ft/node.cc). *)
Fixpoint ins_key (e : ent) (l : list ent) : list ent :=
  match l with
  | [] => [e]
  | x :: l' => if kleb kcmp (m_key (e_msg e)) (m_key (e_msg x)) then e :: l else x :: ins_key e l'
  end.
Definition sort_key (l : list ent) : list ent := fold_right ins_key [] l.
(** mergesort_r by msg_buffer_offset_msn_cmp (ft/node.cc:454-455). *)
Fixpoint ins_msn (e : ent) (l : list ent) : list ent :=
  match l with
  | [] => [e]
  | x :: l' => if (e_msn e <=? e_msn x)%N then e :: l else x :: ins_msn e l'
  end.
Definition sort_msn (l : list ent) : list ent := fold_right ins_msn [] l.

Definition mark (lo hi : bound) (e : ent) : ent :=
  if fresh_in lo hi e then Ent (e_msn e) (e_msg e) Marked else e.

(** bnc_apply_messages_to_basement_node (ft/node.cc:384-529): the new rows, and
    the buffer with its marks. *)
Definition bnc_apply (g : G) (lo hi : bound) (buf : list ent) (b : bn) : rows * list ent :=
  let st := if b_flag b then [] else filter (stale_in lo hi) buf in
  let fr := filter (fresh_in lo hi) buf in
  let bc := filter bcast buf in
  if negb (is_nil bc) || (negb (is_nil st) && negb (is_nil fr)) then
    (apply_list g (b_max b) (sort_msn (st ++ fr ++ bc)) (b_rows b), map (mark lo hi) buf)
  else if is_nil st then
    (apply_list g (b_max b) (sort_key fr) (b_rows b), map (mark lo hi) buf)
  else (apply_list g (b_max b) (sort_key st) (b_rows b), buf).

(** The ancestors of a leaf, nearest first: max_msn_applied_to_node_on_disk and
    the buffer of the child on the path. *)
Definition ancs := list (N * list ent).

(** apply_ancestors_messages_to_bn (ft/node.cc:531-567). *)
Fixpoint anc_apply (g : G) (lo hi : bound) (an : ancs) (b : bn) : bn * ancs :=
  match an with
  | [] => (Bn (b_rows b) (b_max b) true, [])
  | (mx, buf) :: an =>
    if (b_max b <? mx)%N then
      let (r, buf') := bnc_apply g lo hi buf b in
      let (b', an') := anc_apply g lo hi an (Bn r mx (b_flag b)) in
      (b', (mx, buf') :: an')
    else
      let (b', an') := anc_apply g lo hi an b in
      (b', (mx, buf) :: an')
  end.

Definition slot_apply (g : G) (lo hi : bound) (an : ancs) (s : slot) : slot * ancs :=
  match s_mem s with
  | None => (s, an)
  | Some b => let (b', an') := anc_apply g lo hi an b in (Slot (Some b') (s_disk s), an')
  end.

(** The loop over all basement nodes in memory (ft/node.cc:616-628). *)
Fixpoint apply_every (g : G) (lo hi : bound) (an : ancs) (s : seg slot) : seg slot * ancs :=
  match s with
  | One a => let (a', an') := slot_apply g lo hi an a in (One a', an')
  | Cons a p s =>
    let (a', an1) := slot_apply g lo (Some p) an a in
    let (s', an2) := apply_every g (Some p) hi an1 s in
    (Cons a' p s', an2)
  end.

(** bn_needs_ancestors_messages (ft/node.cc:633-684): [None] when messages must
    be applied, otherwise the largest msn seen on the path ([acc]:
    max_msn_applied). *)
Fixpoint bn_needs (lo hi : bound) (an : ancs) (b : bn) (acc : N) : option N :=
  match an with
  | [] => Some acc
  | (mx, buf) :: an =>
    if (b_max b <? mx)%N then
      if existsb bcast buf then None
      else if negb (b_flag b) && existsb (stale_in lo hi) buf then None
      else if existsb (fresh_in lo hi) buf then None
      else bn_needs lo hi an b (if (acc <? mx)%N then mx else acc)
    else bn_needs lo hi an b acc
  end.

Definition slot_needs (lo hi : bound) (an : ancs) (s : slot) : bool :=
  match s_mem s with
  | None => false
  | Some b => match bn_needs lo hi an b 0%N with None => true | _ => false end
  end.
Fixpoint needs_every (lo hi : bound) (an : ancs) (s : seg slot) : bool :=
  match s with
  | One a => slot_needs lo hi an a
  | Cons a p s => slot_needs lo (Some p) an a || needs_every (Some p) hi an s
  end.

(** toku_ft_bn_update_max_msn (ft/node.cc:746-757). *)
Definition raise_max (n : N) (b : bn) : bn :=
  if (b_max b <? n)%N then Bn (b_rows b) n (b_flag b) else b.

(** toku_pin_ftnode_for_query on the leaf (ft/ft-cachetable-wrappers.cc:
    150-250), toku_ft_leaf_needs_ancestors_messages (ft/node.cc:686-744),
    toku_apply_ancestors_messages_to_node (570-631) for basement node [i], which
    is brought into memory first; then [look] at the rows of that basement node,
    whose keys are within the bounds it is given. *)
Definition leaf_pin {R} (g : G) (i : nat) (look : bound -> bound -> rows -> R) (lo hi : bound) (an : ancs) (l : leaf)
  : res (leaf * ancs * R) :=
  match seg_upd lo hi i (fun _ _ s => Ok (One (slot_fetch (l_max l) s), tt)) (l_parts l) with
  | Block | Fail => Fail
  | Ok (ps, _) =>
    if l_dirty l then
      let (ps', an') := if needs_every lo hi an ps then apply_every g lo hi an ps else (ps, an) in
      match seg_upd lo hi i (fun lo hi s =>
        match s_mem s with None => Fail | Some b => Ok (One s, look lo hi (b_rows b)) end) ps' with
      | Ok (_, r) => Ok (Leaf (l_max l) true ps', an', r)
      | _ => Fail
      end
    else
      match seg_upd lo hi i (fun lo hi s =>
        match s_mem s with
        | None => Fail
        | Some b =>
          let (b', an') := match bn_needs lo hi an b 0%N with
                           | None => anc_apply g lo hi an b
                           | Some n => (raise_max n b, an)
                           end in
          Ok (One (Slot (Some b') (s_disk s)), (an', look lo hi (b_rows b')))
        end) ps with
      | Ok (ps', (an', r)) => Ok (Leaf (l_max l) false ps', an', r)
      | _ => Fail
      end
  end.

(** A point query in the leaf: the basement node of [k] and the row looked for
    (ft_search_basement_node, ft/ft-ops.cc:3339). *)
Definition leaf_query (g : G) (k : bytes) (lo hi : bound) (an : ancs) (l : leaf)
  : res (leaf * ancs * option L) :=
  rdo i <- must (which_child kcmp (seg_pivots (l_parts l)) k);
  leaf_pin g i (fun _ _ => rows_find k) lo hi an l.

(** ft_search_node (ft/ft-ops.cc:3732-3830) and ft_search_child (3560-3640)
    down to the leaf; [h] is the node's height.  All nodes on the path are
    pinned for reading, so none of them is locked by a flusher. *)
Fixpoint query (h : nat) (g : G) (k : bytes) (lo hi : bound) (an : ancs) (t : tree)
  : res (tree * ancs * option L) :=
  match t, h with
  | TLeaf l, _ => rdo (l', an', r) <- leaf_query g k lo hi an l; Ok (TLeaf l', an', r)
  | TNode mx lk ch, S h =>
    when free lk;
    rdo i <- must (which_child kcmp (seg_pivots ch) k);
    rdo (ch', (an', r)) <- seg_upd lo hi i (fun lo hi c =>
      rdo (t', an', r) <- query h g k lo hi ((mx, fst c) :: an) (snd c);
      match an' with
      | (_, buf') :: an'' => Ok (One (buf', t'), (an'', r))
      | [] => Fail
      end) ch;
    Ok (TNode mx lk ch', an', r)
  | TNode _ _ _, O => Fail
  end.

(** node->height, from the leftmost child. *)
Fixpoint height (t : tree) : nat :=
  match t with
  | TLeaf _ => O
  | TNode _ _ ch => S (match ch with One c => height (snd c) | Cons c _ _ => height (snd c) end)
  end.

(** ** Injection *)

(** toku_ft_root_put_msg, push_something_in_subtree and
    inject_message_in_locked_node (ft/ft-ops.cc:1435-1527, 1693-1890,
    1892-2015).  [path] is how far the message is promoted: only along the
    child of its key and only past empty buffers.  Broadcasts are injected at
    the root.  [keep]: the node was gorged, so it stays locked for the
    background flusher (1517-1521). *)
Fixpoint inject (g : G) (n : N) (m : msg) (keep : bool) (path : list nat) (t : tree) : res tree :=
  match path with
  | [] =>
    when free (lock_of t);
    rdo t' <- node_put g n m Fresh (fetch_all t);
    Ok (if keep then set_lock Chain t' else t')
  | i :: path =>
    match t with
    | TLeaf _ => Block
    | TNode mx lk ch =>
      when free lk && once m;
      rdo j <- must (which_child kcmp (seg_pivots ch) (m_key m));
      when (i =? j);
      rdo (ch', _) <- seg_upd None None i (fun _ _ c =>
        when is_nil (fst c);
        rdo t' <- inject g n m keep path (snd c);
        Ok (One (fst c, t'), tt)) ch;
      Ok (TNode mx lk ch')
    end
  end.

(** ** The system *)

(** max_msn_in_ft (ft/ft-internal.h) and the tree. *)
Record state := State { s_top : N; s_tree : tree }.

Inductive op :=
| OInject (g : G) (m : msg) (keep : bool) (path : list nat)
| OQuery (g : G) (k : bytes)
| OLockChain (path : list nat)
| OLockCleaner (path : list nat)
| OUnlock (path : list nat)
| OFlush (g : G) (path : list nat) (i : nat)
| OSplit (path : list nat) (i : nat) (w : smode)
| OMerge (g g' : G) (path : list nat) (i : nat) (w : how)
| ONewRoot
| OWriteLeaf (gm gd : option G) (path : list nat) (cuts : list nat)
| OEvict (path : list nat) (j : nat)
| OFetch (path : list nat) (j : nat)
| OMoveStale (path : list nat) (i : nat).

(** An action at the node reached by [path]; it sees the bounds of the node's
    keys and the messages in the buffers above it, nearest first. *)
Fixpoint at_path (path : list nat) (f : bound -> bound -> list ent -> tree -> res tree)
  (lo hi : bound) (pend : list ent) (t : tree) : res tree :=
  match path with
  | [] => f lo hi pend t
  | i :: path =>
    match t with
    | TLeaf _ => Block
    | TNode mx lk ch =>
      rdo (ch', _) <- seg_upd lo hi i (fun lo hi c =>
        rdo t' <- at_path path f lo hi (fst c ++ pend) (snd c);
        Ok (One (fst c, t'), tt)) ch;
      Ok (TNode mx lk ch')
    end
  end.

(** Taking a lock for a chain of flushes: the buffers above are empty (always
    true of the root). *)
Definition lock_chain (pend : list ent) (t : tree) : res tree :=
  when free (lock_of t) && negb (is_leaf t) && is_nil pend; Ok (set_lock Chain t).
(** toku_ftnode_cleaner_callback (ft/ft-flusher.cc:1726-1770). *)
Definition lock_cleaner (t : tree) : res tree :=
  when free (lock_of t) && negb (is_leaf t); Ok (set_lock Cleaner t).
(** toku_unpin_ftnode. *)
Definition unlock (t : tree) : res tree :=
  when negb (free (lock_of t)); Ok (set_lock Free t).

(** ft_init_new_root (ft/ft-ops.cc:1365-1433) up to its split of the old root,
    which is then an [OSplit] of child 0. *)
Definition new_root (t : tree) : res tree :=
  when free (lock_of t);
  Ok (TNode (match t with TLeaf l => l_max l | TNode mx _ _ => mx end) Chain (One ([], t))).

Definition local (s : state) (r : res tree) : res (state * option (option L)) :=
  rdo t <- r; Ok (State (s_top s) t, None).

(** One step; for a query also the row found. *)
Definition step (o : op) (s : state) : res (state * option (option L)) :=
  let at_ p f := local s (at_path p f None None [] (s_tree s)) in
  match o with
  | OInject g m keep path =>
    let n := (s_top s + 1)%N in
    rdo t <- inject g n m keep path (s_tree s); Ok (State n t, None)
  | OQuery g k =>
    rdo (t, _, r) <- query (height (s_tree s)) g k None None [] (s_tree s);
    Ok (State (s_top s) t, Some r)
  | OLockChain p => at_ p (fun _ _ pend t => lock_chain pend t)
  | OLockCleaner p => at_ p (fun _ _ _ t => lock_cleaner t)
  | OUnlock p => at_ p (fun _ _ _ t => unlock t)
  | OFlush g p i => at_ p (fun lo hi _ t => flush_child g i lo hi t)
  | OSplit p i w => at_ p (fun lo hi _ t => split_child i w lo hi t)
  | OMerge g g' p i w => at_ p (fun lo hi _ t => merge_children g g' i w lo hi t)
  | ONewRoot => local s (new_root (s_tree s))
  | OWriteLeaf gm gd p cuts => at_ p (fun _ _ _ t => write_leaf gm gd cuts t)
  | OEvict p j => at_ p (fun _ _ _ t => evict_bn j t)
  | OFetch p j => at_ p (fun _ _ _ t => fetch_bn j t)
  | OMoveStale p i => at_ p (fun _ _ _ t => move_stale i t)
  end.

(** A new dictionary: one empty leaf (ft_create, ft/ft.cc:404-419,
    toku_create_new_ftnode); MIN_MSN is 2^62 (ft/ft-internal.h). *)
Definition MIN_MSN : N := 2 ^ 62.
Definition init : state :=
  State MIN_MSN (TLeaf (Leaf 0 true (One (Slot (Some (Bn [] 0%N false)) [])))).

(** Runs of the system, with the messages injected so far. *)
Definition injected (o : op) : list msg := match o with OInject _ m _ _ => [m] | _ => [] end.

Inductive reach : list msg -> state -> Prop :=
| reach_init : reach [] init
| reach_step h s o s' r : reach h s -> step o s = Ok (s', r) -> reach (h ++ injected o) s'.

End Ft.
Arguments rows : clear implicits.
Arguments ent : clear implicits.
Arguments bn : clear implicits.
Arguments slot : clear implicits.
Arguments leaf : clear implicits.
Arguments tree : clear implicits.
Arguments ancs : clear implicits.
Arguments state : clear implicits.
Arguments op : clear implicits.
