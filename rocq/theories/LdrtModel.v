(** Model of the writer of the bulk loader: toku_loader_write_ft_from_q and
    write_nonleaves, ft/loader/loader.cc; from the rows in the queue to the tree.

    Simplified: a block number is the subtree written at it (every block is written
    once and block numbers are not used again); the rowsets of the queue are one list;
    files and memory do not run out; sizes, basement nodes, compression, the header,
    the translation table and the progress reports are left out.  When a leaf is full
    is an arbitrary function of the rows in it, the next row and the rows after it
    (l.2524-2531 is one).

    Definitions only. *)
From Verif Require Import Base Bytes KOrd LdrModel.
Open Scope nat_scope.

Inductive ltree := LLeaf (rows : list row) | LNode (pivots : list bytes) (kids : list ltree).

(** loader.cc:2505-2578, 2596-2605, 2616-2624: [cur] are the rows in lbuf, [maxkey] is
    maxkey.  The result is subtrees and the content of the pivots file; the last pivot
    is the extra one. *)
Fixpoint write_leaves (full : list row -> row -> list row -> bool) (cur : list row) (maxkey : bytes) (rows : list row) : list ltree * list bytes :=
  match rows with
  | [] => ([LLeaf cur], [[]])
  | x :: rows' =>
      if (0 <? length cur) && full cur x rows' then
        let '(ts, ps) := write_leaves full [x] (fst x) rows' in (LLeaf cur :: ts, maxkey :: ps)
      else write_leaves full (cur ++ [x]) (fst x) rows'
  end.

(** setup_nonleaf_block and write_nonleaf_node, loader.cc:3165-3297: the node, and the
    pivot that goes to the next pivots file. *)
Definition nonleaf (n : nat) (ts : list ltree) (ps : list bytes) : lres (ltree * bytes) :=
  if (length ps <? n) || (length ts <? n) then LErr
  else match n with O => LBug | S n' => LOk (LNode (firstn n' ps) (firstn n ts), nth n' ps []) end.

(** n_per_block, loader.cc:3331. *)
Definition n_per_block : nat := 15.

(** One level, loader.cc:3332-3395, on the subtrees and pivots not used yet. *)
Fixpoint write_level (fuel : nat) (ts : list ltree) (ps : list bytes) : lres (list ltree * list bytes) :=
  match fuel with
  | O => LBug
  | S f =>
      if n_per_block * 2 <=? length ts then
        ldo (t, p) <- nonleaf n_per_block ts ps;
        ldo (ns, nps) <- write_level f (skipn n_per_block ts) (skipn n_per_block ps);
        LOk (t :: ns, p :: nps)
      else if length ts <? 2 then LBug
      else if n_per_block <? length ts then
        let n_first := length ts / 2 in
        ldo (t1, p1) <- nonleaf n_first ts ps;
        ldo (t2, p2) <- nonleaf (length ts - n_first) (skipn n_first ts) (skipn n_first ps);
        LOk ([t1; t2], [p1; p2])
      else
        ldo (t, p) <- nonleaf (length ts) ts ps;
        LOk ([t], [p])
  end.

(** write_nonleaves, loader.cc:3299-3417, and the invariant that one subtree is left,
    l.2633. *)
Fixpoint write_nonleaves (fuel : nat) (ts : list ltree) (ps : list bytes) : lres ltree :=
  match ts with
  | [] => LBug
  | [t] => LOk t
  | _ =>
      match fuel with
      | O => LBug
      | S f => ldo (ns, nps) <- write_level (length ts) ts ps; write_nonleaves f ns nps
      end
  end.

(** toku_loader_write_ft_from_q, loader.cc:2403-2700. *)
Definition write_ft (full : list row -> row -> list row -> bool) (rows : list row) : lres ltree :=
  let '(ts, ps) := write_leaves full [] [] rows in write_nonleaves (length ts) ts ps.

(** How a reader goes down: the first child whose pivot is not before the key, or the
    last child (toku_ftnode_which_child, ft/node.cc:1778-1807; the binary search there is
    in PivotModel). *)
Section Pick.
Variables (A : Type) (f : ltree -> option A) (c : bytes -> bytes -> comparison) (k : bytes).
Fixpoint pick (ts : list ltree) (ps : list bytes) : option A :=
  match ts with
  | [] => None
  | t :: ts' => match ps with [] => f t | p :: ps' => if kleb c k p then f t else pick ts' ps' end
  end.
End Pick.
Arguments pick {A}.
Definition row_find (c : bytes -> bytes -> comparison) (k : bytes) (rows : list row) : option bytes :=
  option_map snd (find (fun x => keqb c k (fst x)) rows).
Fixpoint tree_find (c : bytes -> bytes -> comparison) (k : bytes) (t : ltree) : option bytes :=
  match t with
  | LLeaf rows => row_find c k rows
  | LNode ps ts => pick (tree_find c k) c k ts ps
  end.
