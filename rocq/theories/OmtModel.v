(** Model of the order maintenance tree, util/omt.cc and util/omt.h.

    Simplifications.  Counts and capacities are natural numbers: uint32_t does not wrap while
    there are fewer than 2^30 values, which is also what keeps every index different from
    NODE_NULL (omt.h:127, 158), so "no index yet" is [None] here.  A subtree is a value instead
    of an index into the array of nodes; the array of nodes is represented by its capacity and
    the number of nodes handed out (free_idx), so that running out of nodes is seen.  Nodes
    keep their weight as a field that the functions have to maintain.  Allocation does not
    fail.  Concurrency is not modelled.  [None] is a failed invariant, or an access outside
    the memory allocated. *)
From Verif Require Import Base Bytes PkModel.
Open Scope nat_scope.

Section Omt.
Context {A : Type}.
(** what freshly allocated memory holds *)
Variable junk : nat -> A.
(** the template parameter supports_marks *)
Variable sm : bool.

(** omt_node (omt.h:203-250): left, value, weight, the marked bit, the marks-below bit, right. *)
Inductive tree := Nul | Nod (l : tree) (v : A) (w : nat) (m b : bool) (r : tree).
(** the fields (omt.h:628-645): is_array with start_idx, num_values, values; or root, free_idx. *)
Inductive omt :=
| Arr (cap start num : nat) (vals : list A)
| Tre (cap : nat) (root : tree) (free : nat).

(** EINVAL, DB_NOTFOUND, DB_KEYEXIST as results of an operation. *)
Inductive rc := Ok | Einval | Notfound | Keyexist.

Definition is_null (t : tree) : bool := match t with Nul => true | _ => false end.
(** nweight (615-623). *)
Definition nweight (t : tree) : nat := match t with Nul => 0 | Nod _ _ w _ _ _ => w end.
(** size (228-235). *)
Definition size (o : omt) : nat := match o with Arr _ _ n _ => n | Tre _ t _ => nweight t end.
(** has_marks (273-281) and barf_if_marked (263-271). *)
Definition has_marks (o : omt) : bool :=
  match o with Tre _ (Nod _ _ _ m b _) _ => b || m | _ => false end.
Definition barf (o : omt) : bool := negb (sm && has_marks o).

Definition fresh (n : nat) : list A := map junk (seq 0 n).

(** create_internal_no_array, create_internal (598-613).  The buffer of capacity [n] that is
    not allocated (values = nullptr) is the empty list. *)
Definition create_internal_no_array (n : nat) : omt := Arr n 0 0 [].
Definition create_internal (n : nat) : omt := Arr n 0 0 (fresh n).

(** node_malloc (625-632). *)
Definition node_malloc (cap free : nat) : option nat := guard free <? cap; Some (S free).

(** rebuild_from_sorted_array (689-712); fuel: the number of values. *)
Fixpoint rebuild (fuel cap free : nat) (values : list A) (off n : nat) : option (tree * nat) :=
  if n =? 0 then Some (Nul, free) else
  match fuel with 0 => None | S fuel =>
    let half := n / 2 in
    do free <- node_malloc cap free;
    do v <- nth_error values (off + half);
    do (l, free) <- rebuild fuel cap free values off half;
    do (r, free) <- rebuild fuel cap free values (off + half + 1) (n - (half + 1));
    Some (Nod l v n false false r, free)
  end.

(** convert_to_tree (714-733). *)
Definition convert_to_tree (o : omt) : option omt :=
  match o with
  | Arr _ start num vals =>
      let c := num * 2 in let c := if c <? 4 then 4 else c in
      do (t, free) <- rebuild num c 0 vals start num; Some (Tre c t free)
  | _ => Some o
  end.

(** fill_array_with_subtree_values (658-669): the array starts at [off] of the memory. *)
Fixpoint fill (arr : list A) (off : nat) (t : tree) : option (list A) :=
  match t with
  | Nul => Some arr
  | Nod l v _ _ _ r =>
      do arr <- fill arr off l;
      do arr <- blit arr (off + nweight l) [v];
      fill arr (off + nweight l + 1) r
  end.

(** convert_to_array (671-687). *)
Definition convert_to_array (o : omt) : option omt :=
  match o with
  | Arr _ _ _ _ => Some o
  | Tre _ t _ =>
      let n := nweight t in
      let c := 2 * n in let c := if c <? 4 then 4 else c in
      do vals <- fill (fresh c) 0 t; Some (Arr c 0 n vals)
  end.

(** "if (supports_marks) convert_to_tree()", which ends many functions. *)
Definition marks_tree (o : omt) : option omt := if sm then convert_to_tree o else Some o.

(** create (61-67), create_no_array (69-80). *)
Definition create : option omt := marks_tree (create_internal 2).
Definition create_no_array : omt := if sm then Tre 0 Nul 0 else create_internal_no_array 0.
(** create_from_sorted_array (82-92): [values] from the offset [off] on. *)
Definition create_from_sorted_array (values : list A) (off n : nat) : option omt :=
  do x <- slice values off n;
  do vals <- blit (fresh n) 0 x;
  marks_tree (Arr n 0 n vals).
(** create_steal_sorted_array (94-108). *)
Definition create_steal_sorted_array (values : list A) (n cap : nat) : option omt :=
  marks_tree (Arr cap 0 n values).

(** maybe_resize_array (640-656), on an array. *)
Definition maybe_resize_array (o : omt) (n : nat) : option omt :=
  match o with
  | Arr cap start num vals =>
      let c := if n <=? 2 then 4 else 2 * n in
      if (cap - start <? n) || (c <=? cap / 2) then
        do x <- slice vals start num;
        do vals <- blit (fresh c) 0 x;
        Some (Arr c 0 num vals)
      else Some o
  | Tre _ _ _ => None
  end.

(** maybe_resize_or_convert (735-755). *)
Definition maybe_resize_or_convert (o : omt) (n : nat) : option omt :=
  match o with
  | Arr _ _ _ _ => maybe_resize_array o n
  | Tre cap t free =>
      let c := if n <=? 2 then 4 else 2 * n in
      if (c <=? cap / 2) || ((cap <=? free) && (nweight t <? n)) || (cap <? n) then
        do o <- convert_to_array o; marks_tree o
      else Some o
  end.

(** will_need_rebalance (757-772): the weights of the subtrees after the change; the callers
    add or subtract one. *)
Definition will_need_rebalance (wl wr : nat) : bool :=
  (1 + wl <? (1 + 1 + wr) / 2) || (1 + wr <? (1 + 1 + wl) / 2).

(** A pointer to a subtree: the way to it from the root, false for left. *)
Definition path := list bool.
(** "if ( *rebalance_subtree == nullptr && will_need_rebalance(..)) *rebalance_subtree = subtreep" *)
Definition note (reb : option path) (here : path) (wl wr : nat) : option path :=
  match reb with Some _ => reb | None => if will_need_rebalance wl wr then Some here else None end.

(** insert_internal (774-808). *)
Fixpoint insert_internal (cap free : nat) (t : tree) (v : A) (idx : nat) (here : path) (reb : option path)
  : option (tree * nat * option path) :=
  match t with
  | Nul =>
      guard idx =? 0;
      do free <- node_malloc cap free;
      Some (Nod Nul v 1 false false Nul, free, reb)
  | Nod l x w m b r =>
      if idx <=? nweight l then
        do (l', free, reb') <- insert_internal cap free l v idx (here ++ [false]) (note reb here (nweight l + 1) (nweight r));
        Some (Nod l' x (w + 1) m b r, free, reb')
      else
        do (r', free, reb') <- insert_internal cap free r v (idx - nweight l - 1) (here ++ [true]) (note reb here (nweight l) (nweight r + 1));
        Some (Nod l x (w + 1) m b r', free, reb')
  end.

(** delete_internal (834-887); the second component is the value written through [copyn].
    The weights of the subtrees that shrink are not zero where one is subtracted. *)
Fixpoint delete_internal (t : tree) (idx : nat) (here : path) (reb : option path)
  : option (tree * option A * option path) :=
  match t with
  | Nul => None
  | Nod l x w m b r =>
      if idx <? nweight l then
        do (l', c, reb') <- delete_internal l idx (here ++ [false]) (note reb here (nweight l - 1) (nweight r));
        Some (Nod l' x (w - 1) m b r, c, reb')
      else if idx =? nweight l then
        if is_null l then Some (r, Some x, reb)
        else if is_null r then Some (l, Some x, reb)
        else
          do (r', c, reb') <- delete_internal r 0 (here ++ [true]) (note reb here (nweight l) (nweight r - 1));
          Some (Nod l (match c with Some y => y | None => x end) (w - 1) m b r', None, reb')
      else
        do (r', c, reb') <- delete_internal r (idx - nweight l - 1) (here ++ [true]) (note reb here (nweight l) (nweight r - 1));
        Some (Nod l x (w - 1) m b r', c, reb')
  end.

(** fill_array_with_subtree_idxs (1084-1096): the array holds the nodes, written at the places
    the weights give.  The memory is the unused end of the array of nodes or a new array
    (1136-1152); it is large enough for the weight of the subtree. *)
Fixpoint fill_idxs (arr : list (option (A * bool * bool))) (off : nat) (t : tree) : option (list (option (A * bool * bool))) :=
  match t with
  | Nul => Some arr
  | Nod l v _ m b r =>
      do arr <- fill_idxs arr off l;
      do arr <- blit arr (off + nweight l) [Some (v, m, b)];
      fill_idxs arr (off + nweight l + 1) r
  end.
(** rebuild_subtree_from_idxs (1098-1118). *)
Fixpoint rebuild_idxs (fuel : nat) (idxs : list (option (A * bool * bool))) (off n : nat) : option tree :=
  if n =? 0 then Some Nul else
  match fuel with 0 => None | S fuel =>
    let half := n / 2 in
    match nth_error idxs (off + half) with
    | Some (Some (v, m, b)) =>
        do l <- rebuild_idxs fuel idxs off half;
        do r <- rebuild_idxs fuel idxs (off + half + 1) (n - (half + 1));
        Some (Nod l v n m b r)
    | _ => None
    end
  end.
(** the subtree at a path, and replacing it *)
Fixpoint sub_at (t : tree) (p : path) : option tree :=
  match p, t with
  | [], _ => Some t
  | false :: p, Nod l _ _ _ _ _ => sub_at l p
  | true :: p, Nod _ _ _ _ _ r => sub_at r p
  | _, Nul => None
  end.
Fixpoint put_at (t : tree) (p : path) (s : tree) : option tree :=
  match p, t with
  | [], _ => Some s
  | false :: p, Nod l x w m b r => do l <- put_at l p s; Some (Nod l x w m b r)
  | true :: p, Nod l x w m b r => do r <- put_at r p s; Some (Nod l x w m b r)
  | _, Nul => None
  end.
(** rebalance (1120-1155). *)
Definition rebalance (o : omt) (st : path) : option omt :=
  match o with
  | Arr _ _ _ _ => None
  | Tre cap t free =>
      if is_nil st then do o <- convert_to_array o; marks_tree o
      else
        do s <- sub_at t st;
        do idxs <- fill_idxs (repeat None (nweight s)) 0 s;
        do s <- rebuild_idxs (nweight s) idxs 0 (nweight s);
        do t <- put_at t st s;
        Some (Tre cap t free)
  end.

(** insert_at (283-314). *)
Definition insert_at (o : omt) (v : A) (idx : nat) : option (rc * omt) :=
  guard barf o;
  if size o <? idx then Some (Einval, o) else
  do o <- maybe_resize_or_convert o (size o + 1);
  do o <- match o with
          | Arr _ start num _ =>
              if negb (idx =? num) && (negb (idx =? 0) || (start =? 0)) then convert_to_tree o else Some o
          | _ => Some o
          end;
  match o with
  | Arr cap start num vals =>
      if idx =? num then do vals <- blit vals (start + num) [v]; Some (Ok, Arr cap start (num + 1) vals)
      else guard 0 <? start; do vals <- blit vals (start - 1) [v]; Some (Ok, Arr cap (start - 1) (num + 1) vals)
  | Tre cap t free =>
      do (t, free, reb) <- insert_internal cap free t v idx [] None;
      match reb with
      | Some p => do o <- rebalance (Tre cap t free) p; Some (Ok, o)
      | None => Some (Ok, Tre cap t free)
      end
  end.

(** set_at (316-331), set_at_internal_array (810-815), set_at_internal (817-832). *)
Fixpoint set_at_internal (t : tree) (v : A) (idx : nat) : option tree :=
  match t with
  | Nul => None
  | Nod l x w m b r =>
      if idx <? nweight l then do l <- set_at_internal l v idx; Some (Nod l x w m b r)
      else if idx =? nweight l then Some (Nod l v w m b r)
      else do r <- set_at_internal r v (idx - nweight l - 1); Some (Nod l x w m b r)
  end.
Definition set_at (o : omt) (v : A) (idx : nat) : option (rc * omt) :=
  guard barf o;
  if size o <=? idx then Some (Einval, o) else
  match o with
  | Arr cap start num vals => do vals <- blit vals (start + idx) [v]; Some (Ok, Arr cap start num vals)
  | Tre cap t free => do t <- set_at_internal t v idx; Some (Ok, Tre cap t free)
  end.

(** delete_at (333-361). *)
Definition delete_at (o : omt) (idx : nat) : option (rc * omt) :=
  guard barf o;
  if size o <=? idx then Some (Einval, o) else
  do o <- maybe_resize_or_convert o (size o - 1);
  do o <- match o with
          | Arr _ _ num _ => if negb (idx =? 0) && negb (idx =? num - 1) then convert_to_tree o else Some o
          | _ => Some o
          end;
  match o with
  | Arr cap start num vals =>
      Some (Ok, Arr cap (if negb (idx =? num - 1) then start + 1 else start) (num - 1) vals)
  | Tre cap t free =>
      do (t, _, reb) <- delete_internal t idx [] None;
      match reb with
      | Some p => do o <- rebalance (Tre cap t free) p; Some (Ok, o)
      | None => Some (Ok, Tre cap t free)
      end
  end.

(** split_at (110-129): this and the new one. *)
Definition split_at (o : omt) (idx : nat) : option (rc * omt * option omt) :=
  guard barf o;
  if size o <? idx then Some (Einval, o, None) else
  do o <- convert_to_array o;
  match o with
  | Arr cap start num vals =>
      do new <- create_from_sorted_array vals (start + idx) (num - idx);
      do o <- maybe_resize_array (Arr cap start idx vals) idx;
      do o <- marks_tree o;
      Some (Ok, o, Some new)
  | _ => None
  end.

(** merge (131-180).  [this] is what the object was before, which barf_if_marked looks at. *)
Definition merge (this lo ro : omt) : option omt :=
  guard barf this;
  do (cap, start, vals) <-
    match lo with
    | Arr cap start num vals =>
        if size ro <=? cap - (start + num) then
          do o <- create_steal_sorted_array vals num cap;
          match o with Arr cap _ _ vals => Some (cap, start, vals) | _ => None end
        else
          do x <- slice vals start num;
          do vals <- blit (fresh (num + size ro)) 0 x;
          Some (num + size ro, 0, vals)
    | Tre _ t _ =>
        do vals <- fill (fresh (nweight t + size ro)) 0 t;
        Some (nweight t + size ro, 0, vals)
    end;
  do vals <- match ro with
             | Arr _ rstart rnum rvals => do x <- slice rvals rstart rnum; blit vals (start + size lo) x
             | Tre _ t _ => fill vals (start + size lo) t
             end;
  marks_tree (Arr cap start (size lo + size ro) vals).

(** clone (182-198). *)
Definition clone (this src : omt) : option omt :=
  guard barf this;
  do vals <- match src with
             | Arr _ start num v => do x <- slice v start num; blit (fresh num) 0 x
             | Tre _ t _ => fill (fresh (nweight t)) 0 t
             end;
  marks_tree (Arr (size src) 0 (size src) vals).

(** clear (200-209). *)
Definition clear (o : omt) : omt :=
  match o with Arr cap _ _ vals => Arr cap 0 0 vals | Tre cap _ _ => Tre cap Nul 0 end.
(** destroy (211-226), after which another create may follow. *)

(** fetch (526-539), fetch_internal_array (1057-1064), fetch_internal (1066-1082). *)
Fixpoint fetch_internal (t : tree) (i : nat) : option A :=
  match t with
  | Nul => None
  | Nod l x _ _ _ r =>
      if i <? nweight l then fetch_internal l i
      else if i =? nweight l then Some x
      else fetch_internal r (i - nweight l - 1)
  end.
Definition fetch (o : omt) (i : nat) : option (rc * option A) :=
  if size o <=? i then Some (Einval, None) else
  match o with
  | Arr _ start _ vals => do x <- nth_error vals (start + i); Some (Ok, Some x)
  | Tre _ t _ => do x <- fetch_internal t i; Some (Ok, Some x)
  end.

(** iterate_on_range (374-393), iterate (364-371), iterate_internal_array (890-905),
    iterate_internal (950-983).  The function called gets a value, its index and the state
    that iterate_extra stands for; it returns the new state and 0 or an error. *)
Section Iterate.
Context {X : Type}.
Variable f : A -> nat -> X -> X * Z.
Fixpoint iterate_array (vals : list A) (start i n : nat) (x : X) : option (X * Z) :=
  match n with
  | 0 => Some (x, 0%Z)
  | S n => do v <- nth_error vals (start + i);
           let (x, r) := f v i x in
           if negb (r =? 0)%Z then Some (x, r) else iterate_array vals start (S i) n x
  end.
Fixpoint iterate_internal (left right : nat) (t : tree) (idx : nat) (x : X) : X * Z :=
  match t with
  | Nul => (x, 0%Z)
  | Nod l v _ _ _ r =>
      let root := idx + nweight l in
      let (x, z) := if left <? root then iterate_internal left right l idx x else (x, 0%Z) in
      if negb (z =? 0)%Z then (x, z) else
      let (x, z) := if (left <=? root) && (root <? right) then f v root x else (x, 0%Z) in
      if negb (z =? 0)%Z then (x, z) else
      if root + 1 <? right then iterate_internal left right r (root + 1) x else (x, 0%Z)
  end.
Definition iterate_on_range (o : omt) (left right : nat) (x : X) : option (X * Z + rc) :=
  if size o <? right then Some (inr Einval) else
  if left =? right then Some (inr Ok) else
  match o with
  | Arr _ start _ vals => do p <- iterate_array vals start left (right - left) x; Some (inl p)
  | Tre _ t _ => Some (inl (iterate_internal left right t 0 x))
  end.
Definition iterate (o : omt) (x : X) : option (X * Z + rc) := iterate_on_range o 0 (size o) x.

(** iterate_and_mark_range (396-413), iterate_and_mark_range_internal (986-1020). *)
Fixpoint mark_internal (left right : nat) (t : tree) (idx : nat) (x : X) : option (tree * X * Z) :=
  match t with
  | Nul => None
  | Nod l v w m b r =>
      let root := idx + nweight l in
      do (l, b, x, z) <-
        (if (left <? root) && negb (is_null l) then
           do (l', x, z) <- mark_internal left right l idx x; Some (l', true, x, z)
         else Some (l, b, x, 0%Z));
      if negb (z =? 0)%Z then Some (Nod l v w m b r, x, z) else
      let (p, z) := (if (left <=? root) && (root <? right) then let (x, z) := f v root x in ((true, x), z) else ((m, x), 0%Z)) in
      let (m, x) := (p : bool * X) in
      if negb (z =? 0)%Z then Some (Nod l v w m b r, x, z) else
      if (root + 1 <? right) && negb (is_null r) then
        do (r', x, z) <- mark_internal left right r (root + 1) x; Some (Nod l v w m true r', x, z)
      else Some (Nod l v w m b r, x, 0%Z)
  end.
Definition iterate_and_mark_range (o : omt) (left right : nat) (x : X) : option (omt * (X * Z + rc)) :=
  if size o <? right then Some (o, inr Einval) else
  if left =? right then Some (o, inr Ok) else
  match o with
  | Arr _ _ _ _ => None
  | Tre cap t free => do (t, x, z) <- mark_internal left right t 0 x; Some (Tre cap t free, inl (x, z))
  end.

(** iterate_over_marked (418-427), iterate_over_marked_internal (1023-1055). *)
Fixpoint over_marked (t : tree) (idx : nat) (x : X) : X * Z :=
  match t with
  | Nul => (x, 0%Z)
  | Nod l v _ m b r =>
      let root := idx + nweight l in
      let (x, z) := if b then over_marked l idx x else (x, 0%Z) in
      if negb (z =? 0)%Z then (x, z) else
      let (x, z) := if m then f v root x else (x, 0%Z) in
      if negb (z =? 0)%Z then (x, z) else
      if b then over_marked r (root + 1) x else (x, 0%Z)
  end.
Definition iterate_over_marked (o : omt) (x : X) : option (X * Z) :=
  match o with Arr _ _ _ _ => None | Tre _ t _ => Some (over_marked t 0 x) end.
End Iterate.

(** iterate_ptr (513-524), iterate_ptr_internal (908-932), iterate_ptr_internal_array
    (935-947): the function may change the value in place. *)
Section IteratePtr.
Context {X : Type}.
Variable f : A -> nat -> X -> A * X * Z.
Fixpoint iterate_ptr_array (vals : list A) (start i n : nat) (x : X) : option (list A * X) :=
  match n with
  | 0 => Some (vals, x)
  | S n => do v <- nth_error vals (start + i);
           let '(v, x, r) := f v i x in
           guard (r =? 0)%Z;
           do vals <- blit vals (start + i) [v];
           iterate_ptr_array vals start (S i) n x
  end.
Fixpoint iterate_ptr_internal (left right : nat) (t : tree) (idx : nat) (x : X) : option (tree * X) :=
  match t with
  | Nul => Some (Nul, x)
  | Nod l v w m b r =>
      let root := idx + nweight l in
      do (l, x) <- (if left <? root then iterate_ptr_internal left right l idx x else Some (l, x));
      do (v, x) <- (if (left <=? root) && (root <? right) then
                      let '(v, x, z) := f v root x in guard (z =? 0)%Z; Some (v, x)
                    else Some (v, x));
      do (r, x) <- (if root + 1 <? right then iterate_ptr_internal left right r (root + 1) x else Some (r, x));
      Some (Nod l v w m b r, x)
  end.
Definition iterate_ptr (o : omt) (x : X) : option (omt * X) :=
  match o with
  | Arr cap start num vals => do (vals, x) <- iterate_ptr_array vals start 0 num x; Some (Arr cap start num vals, x)
  | Tre cap t free => do (t, x) <- iterate_ptr_internal 0 (nweight t) t 0 x; Some (Tre cap t free, x)
  end.
End IteratePtr.

(** unmark (429-451): the tree without the bits, and the indexes pushed. *)
Fixpoint unmark (t : tree) (index : nat) : tree * list nat :=
  match t with
  | Nul => (Nul, [])
  | Nod l v w m b r =>
      let root := index + nweight l in
      let (l, il) := if b then unmark l index else (l, []) in
      let (r, ir) := if b then unmark r (root + 1) else (r, []) in
      (Nod l v w false false r, il ++ (if m then [root] else []) ++ ir)
  end.
(** delete_all_marked (453-476). *)
Fixpoint delete_indexes (o : omt) (is : list nat) (i : nat) : option omt :=
  match is with
  | [] => Some o
  | k :: is =>
      do (r, o) <- delete_at o (k - i);
      match r with Ok => delete_indexes o is (S i) | _ => None end
  end.
Definition delete_all_marked (o : omt) : option omt :=
  if negb (has_marks o) then Some o else
  match o with
  | Arr _ _ _ _ => None
  | Tre cap t free =>
      let (t, is) := unmark t 0 in
      do o <- delete_indexes (Tre cap t free) is 0;
      guard barf o; Some o
  end.

(** The searches.  [h] is the caller's function with its argument. *)
Section Find.
Variable h : A -> Z.
(** find_internal_zero_array (1186-1223): the loop, with best_pos and best_zero. *)
Fixpoint zero_loop (fuel : nat) (vals : list A) (lo hi : nat) (pos zero : option nat) : option (option nat * option nat) :=
  if lo =? hi then Some (pos, zero) else
  match fuel with 0 => None | S fuel =>
    let mid := (lo + hi) / 2 in
    do v <- nth_error vals mid;
    match h v with
    | Zneg _ => zero_loop fuel vals (mid + 1) hi pos zero
    | Zpos _ => zero_loop fuel vals lo mid (Some mid) zero
    | Z0 => zero_loop fuel vals lo mid pos (Some mid)
    end
  end.
(** find_internal_zero (1226-1259). *)
Fixpoint find_internal_zero (t : tree) : rc * option A * nat :=
  match t with
  | Nul => (Notfound, None, 0)
  | Nod l v _ _ _ r =>
      match h v with
      | Zneg _ => let '(c, x, i) := find_internal_zero r in (c, x, i + (nweight l + 1))
      | Zpos _ => find_internal_zero l
      | Z0 => let '(c, x, i) := find_internal_zero l in
              match c with Notfound => (Ok, Some v, nweight l) | _ => (c, x, i) end
      end
  end.
(** find_zero (542-558): the code, the value and the index, which is set in both cases. *)
Definition find_zero (o : omt) : option (rc * option A * nat) :=
  match o with
  | Arr _ start num vals =>
      do (pos, zero) <- zero_loop num vals start (start + num) None None;
      match zero with
      | Some i => do v <- nth_error vals i; Some (Ok, Some v, i - start)
      | None => Some (Notfound, None, match pos with Some i => i - start | None => num end)
      end
  | Tre _ t _ => Some (find_internal_zero t)
  end.

(** find_internal_plus_array (1262-1290), find_internal_minus_array (1327-1355). *)
Fixpoint plus_loop (fuel : nat) (vals : list A) (lo hi : nat) (best : option nat) : option (option nat) :=
  if lo =? hi then Some best else
  match fuel with 0 => None | S fuel =>
    let mid := (lo + hi) / 2 in
    do v <- nth_error vals mid;
    if (0 <? h v)%Z then plus_loop fuel vals lo mid (Some mid) else plus_loop fuel vals (mid + 1) hi best
  end.
Fixpoint minus_loop (fuel : nat) (vals : list A) (lo hi : nat) (best : option nat) : option (option nat) :=
  if lo =? hi then Some best else
  match fuel with 0 => None | S fuel =>
    let mid := (lo + hi) / 2 in
    do v <- nth_error vals mid;
    if (h v <? 0)%Z then minus_loop fuel vals (mid + 1) hi (Some mid) else minus_loop fuel vals lo mid best
  end.
(** find_internal_plus (1293-1324), find_internal_minus (1358-1387). *)
Fixpoint find_internal_plus (t : tree) : option (A * nat) :=
  match t with
  | Nul => None
  | Nod l v _ _ _ r =>
      if (0 <? h v)%Z then
        match find_internal_plus l with None => Some (v, nweight l) | q => q end
      else match find_internal_plus r with Some (x, i) => Some (x, i + (nweight l + 1)) | None => None end
  end.
Fixpoint find_internal_minus (t : tree) : option (A * nat) :=
  match t with
  | Nul => None
  | Nod l v _ _ _ r =>
      if (h v <? 0)%Z then
        match find_internal_minus r with Some (x, i) => Some (x, i + (nweight l + 1)) | None => Some (v, nweight l) end
      else find_internal_minus l
  end.
(** find (561-587): [None] inside for DB_NOTFOUND, which leaves value and index alone. *)
Definition find (o : omt) (direction : Z) : option (option (A * nat)) :=
  guard negb (direction =? 0)%Z;
  match o with
  | Arr _ start num vals =>
      do best <- (if (direction <? 0)%Z then minus_loop num vals start (start + num) None
                  else plus_loop num vals start (start + num) None);
      match best with
      | Some i => do v <- nth_error vals i; Some (Some (v, i - start))
      | None => Some None
      end
  | Tre _ t _ => Some (if (direction <? 0)%Z then find_internal_minus t else find_internal_plus t)
  end.
(** insert (238-261): the index is reported for success and for DB_KEYEXIST. *)
Definition insert (o : omt) (value : A) : option (rc * omt * nat) :=
  do (c, _, i) <- find_zero o;
  match c with
  | Ok => Some (Keyexist, o, i)
  | Notfound => do (c, o) <- insert_at o value i; Some (c, o, i)
  | c => Some (c, o, i)
  end.
End Find.
End Omt.
Arguments tree : clear implicits.
Arguments omt : clear implicits.
