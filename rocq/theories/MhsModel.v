(** Model of the tree of free holes of a dictionary file: a red-black tree sorted by
    offset whose nodes are labelled with the largest hole of each subtree.

    Source: ft/serialize/rbtree_mhs.h, ft/serialize/rbtree_mhs.cc.

    Parent pointers are modelled by a path: the frames from a node up to the root.
    A pointer to a node is its subtree together with its path.  [None] is a failed
    invariant or a null dereference. *)
From Verif Require Import Base.
Open Scope N_scope.

(** class OUUInt64 (rbtree_mhs.h:104-182): uint64_t with an infinity-like maximum. *)
Definition MAXV : N := 2 ^ 64 - 1.
Definition both_max (a b : N) : bool := (a =? MAXV) && (b =? MAXV).
(** operator< (h:110-121); [olt], [ogt], [ole] fail when both sides are the maximum. *)
Definition olt (a b : N) : option bool := guard negb (both_max a b); Some (a <? b).
Definition ogt (a b : N) : option bool := guard negb (both_max a b); Some (b <? a).
Definition ole (a b : N) : option bool := guard negb (both_max a b); Some (a <=? b).
(** operator+ and += (h:126-137, 157-167). *)
Definition oadd (a b : N) : option N :=
  if (a =? MAXV) || (b =? MAXV) then Some MAXV
  else guard b <=? MAXV - a; Some (a + b).
(** operator- (h:138-148). *)
Definition osub (a b : N) : option N :=
  guard negb (b =? MAXV);
  if a =? MAXV then Some a else guard b <=? a; Some (a - b).
(** operator-= (h:149-156). *)
Definition osubeq (a b : N) : option N :=
  if a =? MAXV then Some a
  else guard negb (b =? MAXV); guard b <=? a; Some (a - b).

(** static align (rbtree_mhs.cc:586-588) on uint64_t. *)
Definition align (v al : N) : N := ((v + al - 1) mod 2 ^ 64) / al * al.

(** class BlockPair: offset and size. *)
Record hole := Hole { h_off : N; h_size : N }.
Inductive color := Red | Black.

(** class Node (h:184-229) without the parent pointer: color, left child, hole, label
    (largest hole on the left, on the right), right child. *)
Inductive tree := E | T (c : color) (l : tree) (h : hole) (lm rm : N) (r : tree).

(** A parent: [FL] when the node is its left child, [FR] when it is its right child. *)
Inductive frame :=
| FL (c : color) (h : hole) (lm rm : N) (r : tree)
| FR (c : color) (l : tree) (h : hole) (lm rm : N).
Definition path := list frame.

Definition node_of (t : tree) (f : frame) : tree :=
  match f with FL c h lm rm r => T c t h lm rm r | FR c l h lm rm => T c l h lm rm t end.
Fixpoint plug (t : tree) (p : path) : tree :=
  match p with [] => t | f :: p' => plug (node_of t f) p' end.

Definition f_hole (f : frame) : hole := match f with FL _ h _ _ _ | FR _ _ h _ _ => h end.
Definition f_lm (f : frame) : N := match f with FL _ _ lm _ _ | FR _ _ _ lm _ => lm end.
Definition f_rm (f : frame) : N := match f with FL _ _ _ rm _ | FR _ _ _ _ rm => rm end.
Definition set_hole (f : frame) (h : hole) : frame :=
  match f with FL c _ lm rm r => FL c h lm rm r | FR c l _ lm rm => FR c l h lm rm end.
(** Set the label for the side where the node is. *)
Definition set_label (f : frame) (m : N) : frame :=
  match f with FL c h _ rm r => FL c h m rm r | FR c l h lm _ => FR c l h lm m end.
Definition label (f : frame) : N := match f with FL _ _ lm _ _ => lm | FR _ _ _ _ rm => rm end.

Definition is_red (t : tree) : bool := match t with T Red _ _ _ _ _ => true | _ => false end.
Definition set_color (c : color) (t : tree) : tree :=
  match t with E => E | T _ l h lm rm r => T c l h lm rm r end.
Definition set_black := set_color Black.

Section Tree.
(** _align, the alignment given to the constructor. *)
Variable al : N.

(** EffectiveSize (rbtree_mhs.cc:739-748). *)
Definition eff (h : hole) : option N :=
  do e <- oadd (h_off h) (h_size h);
  let a := align (h_off h) al in
  do g <- ogt a e;
  if (g : bool) then Some 0 else osub e a.

(** mhs_of_subtree (h:352-353) from the labels and the hole of a node. *)
Definition sub_mhs (lm rm : N) (h : hole) : option N :=
  do e <- eff h; Some (N.max (N.max lm rm) e).
Definition mhs (t : tree) : option N :=
  match t with E => Some 0 | T _ _ h lm rm _ => sub_mhs lm rm h end.

(** RecalculateMhs (cc:271-290) of a node given by its labels and hole: the path
    with the labels above it updated. *)
Fixpoint recalc (lm rm : N) (h : hole) (p : path) : option path :=
  match p with
  | [] => Some []
  | f :: p' =>
    do m <- sub_mhs lm rm h;
    if label f =? m then Some p
    else
      let f' := set_label f m in
      do p'' <- recalc (f_lm f') (f_rm f') (f_hole f') p';
      Some (f' :: p'')
  end.

(** RecalculateMhs of the [n]-th node of a path. *)
Fixpoint recalc_at (n : nat) (p : path) : option path :=
  match p with
  | [] => None
  | f :: p' =>
    match n with
    | O => do p'' <- recalc (f_lm f) (f_rm f) (f_hole f) p'; Some (f :: p'')
    | S n' => do p'' <- recalc_at n' p'; Some (f :: p'')
    end
  end.

(** LeftRotate (cc:207-231) and RightRotate (cc:243-266) of a subtree; the parent's
    label is not touched. *)
Definition left_rotate (t : tree) : option tree :=
  match t with
  | T c l h lm rm (T rc rl rh rlm rrm rr) =>
    do m <- sub_mhs lm rlm h;
    Some (T rc (T c l h lm rlm rl) rh m rrm rr)
  | _ => None
  end.
Definition right_rotate (t : tree) : option tree :=
  match t with
  | T c (T lc ll lh llm lrm lr) h lm rm r =>
    do m <- sub_mhs lrm rm h;
    Some (T lc ll lh llm m (T c lr h lrm rm r))
  | _ => None
  end.

(** InsertFixup (cc:445-498) of the (red) node [t]. *)
Fixpoint insert_fixup (t : tree) (p : path) : option tree :=
  match p with
  | [] => Some (set_black t)
  | FL Red h1 lm1 rm1 r1 :: p1 =>
    match p1 with
    | [] => None
    | FL _ h2 lm2 rm2 uncle :: p2 =>
      if is_red uncle then insert_fixup (T Red (T Black t h1 lm1 rm1 r1) h2 lm2 rm2 (set_black uncle)) p2
      else
        do t' <- right_rotate (T Red (T Black t h1 lm1 rm1 r1) h2 lm2 rm2 uncle);
        Some (set_black (plug t' p2))
    | FR _ uncle h2 lm2 rm2 :: p2 =>
      if is_red uncle then insert_fixup (T Red (set_black uncle) h2 lm2 rm2 (T Black t h1 lm1 rm1 r1)) p2
      else
        do a <- right_rotate (T Red t h1 lm1 rm1 r1);
        do t' <- left_rotate (T Red uncle h2 lm2 rm2 (set_black a));
        Some (set_black (plug t' p2))
    end
  | FR Red l1 h1 lm1 rm1 :: p1 =>
    match p1 with
    | [] => None
    | FL _ h2 lm2 rm2 uncle :: p2 =>
      if is_red uncle then insert_fixup (T Red (T Black l1 h1 lm1 rm1 t) h2 lm2 rm2 (set_black uncle)) p2
      else
        do a <- left_rotate (T Red l1 h1 lm1 rm1 t);
        do t' <- right_rotate (T Red (set_black a) h2 lm2 rm2 uncle);
        Some (set_black (plug t' p2))
    | FR _ uncle h2 lm2 rm2 :: p2 =>
      if is_red uncle then insert_fixup (T Red (set_black uncle) h2 lm2 rm2 (T Black l1 h1 lm1 rm1 t)) p2
      else
        do t' <- left_rotate (T Red uncle h2 lm2 rm2 (T Black l1 h1 lm1 rm1 t));
        Some (set_black (plug t' p2))
    end
  | _ => Some (set_black (plug t p))
  end.

(** The cases 2-4 of RawRemoveFixup (cc:631-656, 666-690) with a black sibling: the new
    subtree in place of the parent, and whether the loop goes on from it. *)
Definition fix_left (t : tree) (c : color) (h : hole) (lm rm : N) (other : tree) : option (tree * bool) :=
  match other with
  | E => None
  | T oc ol oh olm orm orr =>
    if negb (is_red ol) && negb (is_red orr) then Some (T c t h lm rm (set_color Red other), true)
    else
      do other' <- (if is_red orr then Some other
                    else right_rotate (T Red (set_black ol) oh olm orm orr));
      match other' with
      | E => None
      | T oc' ol' oh' olm' orm' or' =>
        match or' with
        | E => None
        | _ => do t' <- left_rotate (T Black t h lm rm (T c ol' oh' olm' orm' (set_black or')));
               Some (t', false)
        end
      end
  end.
Definition fix_right (t : tree) (c : color) (other : tree) (h : hole) (lm rm : N) : option (tree * bool) :=
  match other with
  | E => None
  | T oc ol oh olm orm orr =>
    if negb (is_red ol) && negb (is_red orr) then Some (T c (set_color Red other) h lm rm t, true)
    else
      do other' <- (if is_red ol then Some other
                    else left_rotate (T Red ol oh olm orm (set_black orr)));
      match other' with
      | E => None
      | T oc' ol' oh' olm' orm' or' =>
        match ol' with
        | E => None
        | _ => do t' <- right_rotate (T Black (T c (set_black ol') oh' olm' orm' or') h lm rm t);
               Some (t', false)
        end
      end
  end.

(** RawRemoveFixup (cc:619-695).  In case 1 the red sibling is rotated above the
    parent, which turns red: a case 2 after it ends the loop, because the parent is
    the next node and is red. *)
Fixpoint remove_fixup (t : tree) (p : path) : option tree :=
  if is_red t then Some (plug (set_black t) p)
  else
    match p with
    | [] => Some (set_black t)
    | FL c h lm rm other :: p' =>
      if is_red other then
        match other with
        | T _ ol oh olm orm orr =>
          do m <- sub_mhs lm olm h;
          do (t', again) <- fix_left t Red h lm olm ol;
          let f := FL Black oh m orm orr in
          if again : bool then Some (plug (set_black t') (f :: p'))
          else Some (set_black (plug t' (f :: p')))
        | E => None
        end
      else
        do (t', again) <- fix_left t c h lm rm other;
        if again : bool then remove_fixup t' p' else Some (set_black (plug t' p'))
    | FR c other h lm rm :: p' =>
      if is_red other then
        match other with
        | T _ ol oh olm orm orr =>
          do m <- sub_mhs orm rm h;
          do (t', again) <- fix_right t Red orr h orm rm;
          let f := FR Black ol oh olm m in
          if again : bool then Some (plug (set_black t') (f :: p'))
          else Some (set_black (plug t' (f :: p')))
        | E => None
        end
      else
        do (t', again) <- fix_right t c other h lm rm;
        if again : bool then remove_fixup t' p' else Some (set_black (plug t' p'))
    end.

(** The leftmost node of a subtree and the path to it (cc:512-515). *)
Fixpoint leftmost (t : tree) (p : path) : option (tree * path) :=
  match t with
  | E => None
  | T c l h lm rm r =>
    match l with
    | E => Some (t, p)
    | _ => leftmost l (FL c h lm rm r :: p)
    end
  end.

(** What follows the unlinking of a node of color [c] (cc:549-551, 577-579). *)
Definition after_unlink (c : color) (child : tree) (p : path) : option tree :=
  match c with
  | Black => remove_fixup child p
  | Red => Some (plug child p)
  end.

(** RawRemove (cc:507-580) of the node [t] at [p].  With two children the node's label
    on the right is brought up to date by RecalculateMhs(parent), which may also
    compute the size of the node's own hole; here that is always done. *)
Definition raw_remove (t : tree) (p : path) : option tree :=
  match t with
  | E => None
  | T c l h lm rm r =>
    match l, r with
    | T _ _ _ _ _ _, T _ _ _ _ _ _ =>
      do (rep, q) <- leftmost r [];
      match rep with
      | E => None
      | T rc _ rh _ rrm rchild =>
        match q with
        | [] =>
          do p' <- recalc lm rrm rh p;
          after_unlink rc rchild (FR c l rh lm rrm :: p')
        | f :: q' =>
          let f' := set_label f rrm in
          guard is_some (eff h);
          do w <- recalc (f_lm f') (f_rm f') (f_hole f') (q' ++ [FR c l h lm rm]);
          match rev w with
          | FR _ _ _ _ rm' :: w' =>
            do p' <- recalc lm rm' rh p;
            after_unlink rc rchild (f' :: rev w' ++ FR c l rh lm rm' :: p')
          | _ => None
          end
        end
      end
    | _, _ =>
      let child := match l with E => r | _ => l end in
      match p with
      | [] => after_unlink c child []
      | f :: p' =>
        do m <- mhs child;
        let f' := set_label f m in
        do p'' <- recalc (f_lm f') (f_rm f') (f_hole f') p';
        after_unlink c child (f' :: p'')
      end
    end
  end.

(** The loop of Insert (cc:370-382): the path of the empty place for [off]. *)
Fixpoint descend (off : N) (t : tree) (p : path) : option path :=
  match t with
  | E => Some p
  | T c l h lm rm r =>
    do b <- olt off (h_off h);
    if (b : bool) then descend off l (FL c h lm rm r :: p)
    else descend off r (FR c l h lm rm :: p)
  end.

Definition is_fl (f : frame) : bool := match f with FL _ _ _ _ _ => true | FR _ _ _ _ _ => false end.

(** PredecessorHelper and SuccessorHelper (cc:180-187, 165-171) for the empty place: the
    number of the nearest node above it on the left ([b = false]) or right ([true]). *)
Fixpoint nearest (b : bool) (p : path) : option nat :=
  match p with
  | [] => None
  | f :: p' => if Bool.eqb (is_fl f) b then Some O else do n <- nearest b p'; Some (S n)
  end.

Fixpoint upd (n : nat) (h : hole) (p : path) : path :=
  match p with
  | [] => []
  | f :: p' => match n with O => set_hole f h :: p' | S n' => f :: upd n' h p' end
  end.

Definition hole_at (n : nat) (p : path) : option hole :=
  do f <- nth_error p n; Some (f_hole f).

(** IsNewNodeMergable (cc:292-316), for one side each. *)
Definition left_mergable (p : path) (n : option nat) (off : N) : option bool :=
  match n with
  | None => Some false
  | Some n =>
    do h <- hole_at n p;
    do e <- oadd (h_size h) (h_off h);
    do b <- olt e off;
    if (b : bool) then Some false else guard e =? off; Some true
  end.
Definition right_mergable (p : path) (n : option nat) (off size : N) : option bool :=
  match n with
  | None => Some false
  | Some n =>
    do h <- hole_at n p;
    do e <- oadd off size;
    do b <- olt e (h_off h);
    if (b : bool) then Some false else guard e =? h_off h; Some true
  end.

(** Give node [n] of the path a new hole and recalculate. *)
Definition absorb (n : nat) (h : hole) (p : path) : option tree :=
  do p' <- recalc_at n (upd n h p); Some (plug E p').

(** AbsorbNewNode (cc:318-360) when both neighbours merge: [d] is the node that
    disappears (number 0: the parent of the empty place), [k] the one that stays. *)
Definition absorb_both (k : nat) (hd hk : hole) (p : path) : option tree :=
  do p1 <- recalc_at 0 (upd 0 hd (upd k hk p));
  do p2 <- recalc_at k p1;
  match p2 with
  | [] => None
  | f :: p3 => raw_remove (node_of E f) p3
  end.

(** Insert (cc:369-443). *)
Definition insert (t : tree) (off size : N) : option tree :=
  do p <- descend off t [];
  let pred := nearest false p in
  let succ := nearest true p in
  do lmg <- left_mergable p pred off;
  do rmg <- right_mergable p succ off size;
  match p with
  | [] => insert_fixup (T Red E (Hole off size) 0 0 E) []
  | f :: _ =>
    if (lmg : bool) then
      do n <- pred; do hp <- hole_at n p;
      if (rmg : bool) then
        do k <- succ; do hs <- hole_at k p;
        if is_fl f then
          do s1 <- oadd (h_size hs) size;
          do s2 <- oadd (h_size hp) s1;
          do o1 <- oadd off s1;
          absorb_both n (Hole o1 0) (Hole (h_off hp) s2) p
        else
          do s1 <- oadd (h_size hp) size;
          do s2 <- oadd (h_size hs) s1;
          do o1 <- oadd (h_off hp) s1;
          absorb_both k (Hole o1 0) (Hole (h_off hp) s2) p
      else
        do s1 <- oadd (h_size hp) size;
        absorb n (Hole (h_off hp) s1) p
    else if (rmg : bool) then
      do k <- succ; do hs <- hole_at k p;
      do o1 <- osubeq (h_off hs) size;
      do s1 <- oadd (h_size hs) size;
      absorb k (Hole o1 s1) p
    else
      do p' <- recalc 0 0 (Hole off size) p;
      insert_fixup (T Red E (Hole off size) 0 0 E) p'
  end.

(** SearchFirstFitBySizeHelper (cc:121-141). *)
Fixpoint first_fit (size : N) (t : tree) (p : path) : option (tree * path) :=
  match t with
  | E => None
  | T c l h lm rm r =>
    do e <- eff h;
    if size <=? e then
      if size <=? lm then first_fit size l (FL c h lm rm r :: p) else Some (t, p)
    else if size <=? lm then first_fit size l (FL c h lm rm r :: p)
    else if size <=? rm then first_fit size r (FR c l h lm rm :: p)
    else None
  end.

(** Remove (cc:502-505, 589-617): SearchFirstFitBySize (cc:112-119; its null result is
    dereferenced) and the cut.  Returned: the tree and the offset. *)
Definition remove (t : tree) (size : N) : option (tree * N) :=
  match t with
  | E => None
  | T _ _ h lm rm _ =>
    do e <- eff h;
    guard negb ((e <? size) && (lm <? size) && (rm <? size));
    do (n, p) <- first_fit size t [];
    match n with
    | E => None
    | T c l h lm rm r =>
      let ans := align (h_off h) al in
      do e1 <- oadd ans size;
      do e2 <- oadd (h_off h) (h_size h);
      do b <- ole e1 e2;
      guard b;
      if ans =? h_off h then
        do o' <- oadd (h_off h) size;
        do s' <- osubeq (h_size h) size;
        let h' := Hole o' s' in
        do p' <- recalc lm rm h' p;
        if s' =? 0 then do t' <- raw_remove (T c l h' lm rm r) p'; Some (t', ans)
        else Some (plug (T c l h' lm rm r) p', ans)
      else if e1 =? e2 then
        do s' <- osubeq (h_size h) size;
        let h' := Hole (h_off h) s' in
        do p' <- recalc lm rm h' p;
        Some (plug (T c l h' lm rm r) p', ans)
      else
        do s' <- osub ans (h_off h);
        let h' := Hole (h_off h) s' in
        do p' <- recalc lm rm h' p;
        do s2 <- osub e2 e1;
        do t' <- insert (plug (T c l h' lm rm r) p') e1 s2;
        Some (t', ans)
    end
  end.

End Tree.

(** MaxNode (cc:154-163): its hole. *)
Fixpoint max_node (t : tree) : option hole :=
  match t with
  | E => None
  | T _ _ h _ _ r => match r with E => Some h | _ => max_node r end
  end.
