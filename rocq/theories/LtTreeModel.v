(** Model of the tree of row locks of one dictionary.

    Source: locktree/keyrange.cc, locktree/treenode.cc,
    locktree/concurrent_tree.cc, ft/comparator.h, util/dbt.cc.

    Simplifications common to the whole file:
    - A call that works under a [locked_keyrange] (from prepare to release) is
      one atomic step.  In the code the mutexes of the nodes serialise the calls
      that meet in a subtree and let the others overlap in time.
    - Nodes are values, so mutexes, allocation and the sharing of key memory
      between nodes (swap_in_place, copyref) are not modelled.
    - Depth estimates are unbounded numbers instead of uint32_t. *)
From Verif Require Import Base Bytes.
Open Scope N_scope.

(** ** Keys with infinities *)

(** A key of the lock tree: a DBT, where the two infinities are two reserved
    DBTs recognised by their address (util/dbt.cc:262-275). *)
Inductive ep := NegInf | Fin (k : bytes) | PosInf.

(** dbt->size; the reserved DBTs are zero-filled (util/dbt.cc:258-270). *)
Definition ep_size (e : ep) : N := match e with Fin k => len k | _ => 0 end.

(** A key range (locktree/keyrange.h:66-146): the two end points, both
    included.  [r_same] says that both end points are one piece of memory, which
    is what toku_dbt_equals tests for finite keys (util/dbt.cc:298-305). *)
Record rng := Rng { r_l : ep; r_r : ep; r_same : bool }.

(** util/dbt.cc:298-305 toku_dbt_equals. *)
Definition dbt_equals (g : rng) : bool :=
  match r_l g, r_r g with
  | Fin _, Fin _ => r_same g
  | NegInf, NegInf | PosInf, PosInf => true
  | _, _ => false
  end.

(** locktree/keyrange.cc:129-133 get_infinite_range. *)
Definition inf_range : rng := Rng NegInf PosInf false.

(** locktree/keyrange.h:88-93 enum comparison. *)
Inductive rcomp := EQUALS | LESS_THAN | GREATER_THAN | OVERLAPS.

(** A node of the tree (locktree/treenode.h:174-205): two children, each with
    the depth estimate kept beside the pointer (child_ptr, treenode.h:160-171),
    a range and a transaction.  [E] is the null pointer; the always present root
    node is [E] when it is marked empty (m_is_empty).  The flag m_is_root is the
    position in the tree. *)
Inductive tree :=
| E
| T (dl : N) (l : tree) (g : rng) (x : txnid) (dr : N) (r : tree).

(** The depth estimate of a node (locktree/treenode.cc:143-147). *)
Definition depth (t : tree) : N :=
  match t with E => 0 | T dl _ _ _ dr _ => (if dr <? dl then dl else dr) + 1 end.

(** child_ptr::get_locked (locktree/treenode.cc:484-490): refreshes the depth
    estimate of an existing child. *)
Definition refresh (d : N) (t : tree) : N :=
  match t with E => d | _ => depth t end.

Definition is_E (t : tree) : bool := match t with E => true | _ => false end.

(** The number of nodes: the bound of every descent. *)
Fixpoint size (t : tree) : nat :=
  match t with E => 0 | T _ l _ _ _ r => S (size l + size r) end%nat.

(** left_imbalanced and right_imbalanced (locktree/treenode.cc:381-391). *)
Definition left_imbalanced (th : N) (t : tree) : bool :=
  match t with E => false | T dl l _ _ dr _ => negb (is_E l) && (th + dr <? dl) end.
Definition right_imbalanced (th : N) (t : tree) : bool :=
  match t with E => false | T dl _ _ _ dr r => negb (is_E r) && (th + dl <? dr) end.

(** treenode::maybe_rebalance (locktree/treenode.cc:398-459), with
    IMBALANCE_THRESHOLD = 2 (treenode.h:174). *)
Definition maybe_rebalance (t : tree) : tree :=
  match t with
  | E => E
  | T dl l g x dr r =>
    if left_imbalanced 2 t then
      match l with
      | E => t
      | T cdl cl cg cx cdr cr =>
        if right_imbalanced 0 l then
          match cr with
          | E => t
          | T gdl gl gg gx gdr gr =>
            let child := T cdl cl cg cx gdl gl in
            let this := T gdr gr g x dr r in
            T (depth child) child gg gx (depth this) this
          end
        else
          let this := T cdr cr g x dr r in
          T cdl cl cg cx (depth this) this
      end
    else if right_imbalanced 2 t then
      match r with
      | E => t
      | T cdl cl cg cx cdr cr =>
        if left_imbalanced 0 r then
          match cl with
          | E => t
          | T gdl gl gg gx gdr gr =>
            let child := T gdr gr cg cx cdr cr in
            let this := T dl l g x gdl gl in
            T (depth this) this gg gx (depth child) child
          end
        else
          let this := T dl l g x cdl cl in
          T (depth this) this cg cx cdr cr
      end
    else t
  end.

(** lock_and_rebalance_left/right (locktree/treenode.cc:462-480) on one child
    pointer. *)
Definition lock_and_rebalance (d : N) (t : tree) : N * tree :=
  match t with
  | E => (d, E)
  | _ => let t' := maybe_rebalance t in (depth t', t')
  end.

(** find_child_at_extreme(1), the detaching of the found node from its parent
    and the value read from it (locktree/treenode.cc:252-266, 297-306).  The
    result is what the parent stores as child pointer, and the range and
    transaction of the detached node. *)
Fixpoint pop_max (t : tree) : option ((N * tree) * rng * txnid) :=
  match t with
  | E => None
  | T dl l g x dr r =>
    match r with
    | E => Some ((dl, l), g, x)
    | _ => do (p, g', x') <- pop_max r;
           Some ((depth t, T dl l g x (fst p) (snd p)), g', x')
    end
  end.

(** The same for find_child_at_extreme(-1) (locktree/treenode.cc:308-317). *)
Fixpoint pop_min (t : tree) : option ((N * tree) * rng * txnid) :=
  match t with
  | E => None
  | T dl l g x dr r =>
    match l with
    | E => Some ((dr, r), g, x)
    | _ => do (p, g', x') <- pop_min l;
           Some ((depth t, T (fst p) (snd p) g x dr r), g', x')
    end
  end.

(** remove_root_of_subtree (locktree/treenode.cc:276-326). *)
Definition remove_root (t : tree) : option tree :=
  match t with
  | E => None
  | T dl l g x dr r =>
    match l, r with
    | E, E => Some E
    | T _ _ _ _ _ _, _ =>
      do (p, g', x') <- pop_max l; Some (T (fst p) (snd p) g' x' dr r)
    | E, T _ _ _ _ _ _ =>
      do (p, g', x') <- pop_min r; Some (T dl l g' x' (fst p) (snd p))
    end
  end.

(** The part of the tree above a locked subtree: for each ancestor the child we
    went into, the other child and the node's own content. *)
Inductive frame :=
| FL (dl : N) (g : rng) (x : txnid) (dr : N) (r : tree)
| FR (dl : N) (l : tree) (g : rng) (x : txnid) (dr : N).

Fixpoint plug (k : list frame) (t : tree) : tree :=
  match k with
  | [] => t
  | FL dl g x dr r :: k' => plug k' (T dl t g x dr r)
  | FR dl l g x dr :: k' => plug k' (T dl l g x dr t)
  end.

(** concurrent_tree::locked_keyrange (locktree/concurrent_tree.h:90-150): the
    locked subtree in its place and the range. *)
Record lkr := Lkr { k_ctx : list frame; k_sub : tree; k_rng : rng }.

(** locked_keyrange::prepare (locktree/concurrent_tree.cc:73-80). *)
Definition lkr_prepare (t : tree) : lkr := Lkr [] t inf_range.

(** locked_keyrange::release (locktree/concurrent_tree.cc:101-103): the tree
    with the changes made under the lock. *)
Definition lkr_release (k : lkr) : tree := plug (k_ctx k) (k_sub k).

Section Cmp.

(** The dictionary's comparison function (ft/comparator.h:60, 134-149), a
    parameter of everything below.  The shortcut through memcmp for keys with
    the magic byte is part of it. *)
Variable kcmp : bytes -> bytes -> comparison.

(** comparator::operator() (ft/comparator.h:134-149) with
    toku_dbt_infinite_compare (util/dbt.cc:283-296). *)
Definition ecmp (a b : ep) : comparison :=
  match a, b with
  | NegInf, NegInf | PosInf, PosInf => Eq
  | PosInf, _ => Gt
  | _, PosInf => Lt
  | NegInf, _ => Lt
  | _, NegInf => Gt
  | Fin x, Fin y => kcmp x y
  end.

(** keyrange::compare (locktree/keyrange.cc:108-120). *)
Definition rcompare (a b : rng) : rcomp :=
  match ecmp (r_r a) (r_l b) with
  | Lt => LESS_THAN
  | _ =>
    match ecmp (r_l a) (r_r b) with
    | Gt => GREATER_THAN
    | _ =>
      match ecmp (r_l a) (r_l b), ecmp (r_r a) (r_r b) with
      | Eq, Eq => EQUALS
      | _, _ => OVERLAPS
      end
    end
  end.

(** keyrange::overlaps (locktree/keyrange.cc:122-127). *)
Definition roverlaps (a b : rng) : bool :=
  match rcompare a b with EQUALS | OVERLAPS => true | _ => false end.

(** keyrange::extend (locktree/keyrange.cc:86-95).  A replaced end point is a
    fresh copy, so the end points no longer share memory. *)
Definition rextend (a b : rng) : rng :=
  let a1 := match ecmp (r_l b) (r_l a) with
            | Lt => Rng (r_l b) (r_r a) false | _ => a end in
  match ecmp (r_r b) (r_r a1) with
  | Gt => Rng (r_l a1) (r_r b) false | _ => a1 end.

(** treenode::traverse_overlaps (locktree/treenode.cc:191-225): calls [fn] in
    key order on the nodes overlapping [rg]; [fn] returns the new accumulator
    and whether to go on.  A null child is [E], on which nothing happens. *)
Fixpoint traverse {A} (rg : rng) (fn : A -> rng -> txnid -> A * bool) (t : tree) (a : A)
  : A * tree :=
  match t with
  | E => (a, E)
  | T dl l g x dr r =>
    match rcompare rg g with
    | EQUALS => (fst (fn a g x), t)
    | LESS_THAN =>
      let (a1, l1) := traverse rg fn l a in
      (a1, T (refresh dl l) l1 g x (refresh dr r) r)
    | GREATER_THAN =>
      let (a1, r1) := traverse rg fn r a in
      (a1, T (refresh dl l) l g x (refresh dr r) r1)
    | OVERLAPS =>
      let (a1, l1) := traverse rg fn l a in
      let (a2, go) := fn a1 g x in
      if go then
        let (a3, r1) := traverse rg fn r a2 in
        (a3, T (refresh dl l) l1 g x (refresh dr r) r1)
      else (a2, T (refresh dl l) l1 g x dr r)
    end
  end.

(** treenode::insert (locktree/treenode.cc:227-250).  [n] bounds the depth of
    the recursion; running out of it is an error the proofs exclude. *)
Fixpoint tree_insert (n : nat) (rg : rng) (x : txnid) (t : tree) : option tree :=
  match n with
  | O => None
  | S n' =>
    match t with
    | E => None
    | T dl l g y dr r =>
      match rcompare rg g with
      | LESS_THAN =>
        let (dl', l') := lock_and_rebalance dl l in
        match l' with
        | E => let c := T 0 E rg x 0 E in Some (T (depth c) c g y dr r)
        | _ => do l'' <- tree_insert n' rg x l'; Some (T dl' l'' g y dr r)
        end
      | GREATER_THAN =>
        let (dr', r') := lock_and_rebalance dr r in
        match r' with
        | E => let c := T 0 E rg x 0 E in Some (T dl l g y (depth c) c)
        | _ => do r'' <- tree_insert n' rg x r'; Some (T dl l g y dr' r'')
        end
      | _ => None   (* invariant(c == GREATER_THAN) fails *)
      end
    end
  end.

(** treenode::remove (locktree/treenode.cc:343-379); the result [E] is the null
    pointer. *)
Fixpoint tree_remove (rg : rng) (t : tree) : option tree :=
  match t with
  | E => None   (* invariant_notnull(child) fails *)
  | T dl l g x dr r =>
    match rcompare rg g with
    | EQUALS => remove_root t
    | LESS_THAN => do l' <- tree_remove rg l; Some (T (depth l') l' g x dr r)
    | GREATER_THAN => do r' <- tree_remove rg r; Some (T dl l g x (depth r') r')
    | OVERLAPS => None   (* abort() *)
    end
  end.

(** treenode::find_node_with_overlapping_child (locktree/treenode.cc:149-188).
    The comparison hint is the result of the comparison it stands for. *)
Fixpoint find_ovl (n : nat) (rg : rng) (t : tree) (k : list frame)
  : option (list frame * tree) :=
  match n with
  | O => None
  | S n' =>
    match t with
    | E => None
    | T dl l g x dr r =>
      match rcompare rg g with
      | LESS_THAN =>
        let (dl', l') := lock_and_rebalance dl l in
        match l' with
        | E => Some (k, T dl' l' g x dr r)
        | T _ _ cg _ _ _ =>
          if roverlaps rg cg then Some (k, T dl' l' g x dr r)
          else find_ovl n' rg l' (FL dl' g x dr r :: k)
        end
      | GREATER_THAN =>
        let (dr', r') := lock_and_rebalance dr r in
        match r' with
        | E => Some (k, T dl l g x dr' r')
        | T _ _ cg _ _ _ =>
          if roverlaps rg cg then Some (k, T dl l g x dr' r')
          else find_ovl n' rg r' (FR dl l g x dr' :: k)
        end
      | _ => None   (* invariant(c == GREATER_THAN) fails *)
      end
    end
  end.

(** locked_keyrange::acquire (locktree/concurrent_tree.cc:82-99), called on a
    prepared locked_keyrange, whose subtree is the root. *)
Definition lkr_acquire (k : lkr) (rg : rng) : option lkr :=
  match k_sub k with
  | E => Some (Lkr (k_ctx k) E rg)
  | T _ _ g _ _ _ =>
    if roverlaps g rg then Some (Lkr (k_ctx k) (k_sub k) rg)
    else do (c, s) <- find_ovl (size (k_sub k)) rg (k_sub k) (k_ctx k);
         Some (Lkr c s rg)
  end.

(** locked_keyrange::iterate (locktree/concurrent_tree.cc:105-112). *)
Definition lkr_iterate {A} (k : lkr) (fn : A -> rng -> txnid -> A * bool) (a : A) : A * lkr :=
  let (a', s) := traverse (k_rng k) fn (k_sub k) a in (a', Lkr (k_ctx k) s (k_rng k)).

(** locked_keyrange::insert (locktree/concurrent_tree.cc:114-121). *)
Definition lkr_insert (k : lkr) (rg : rng) (x : txnid) : option lkr :=
  match k_sub k with
  | E => Some (Lkr (k_ctx k) (T 0 E rg x 0 E) (k_rng k))
  | s => do s' <- tree_insert (size s) rg x s; Some (Lkr (k_ctx k) s' (k_rng k))
  end.

(** locked_keyrange::remove (locktree/concurrent_tree.cc:123-132).  A subtree
    that disappears must be the whole tree. *)
Definition lkr_remove (k : lkr) (rg : rng) : option lkr :=
  guard negb (is_E (k_sub k));
  do s' <- tree_remove rg (k_sub k);
  guard negb (is_E s') || is_nil (k_ctx k);
  Some (Lkr (k_ctx k) s' (k_rng k)).

End Cmp.
