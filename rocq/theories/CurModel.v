(** Cursor searches through the tree: ft/cursor.cc and the search functions of
    ft/ft-ops.cc, on top of the tree of FtModel.v. *)
From Verif Require Import Base Bytes KOrd PivotModel FtModel.
Open Scope nat_scope.

Section Cur.
Context {E : env}.
Local Notation kcmp := (kcmp E).
Local Notation L := (L E).
Local Notation G := (G E).
Local Notation rows := (rows E).
Local Notation leaf := (leaf E).
Local Notation tree := (tree E).
Local Notation ancs := (ancs E).
Local Notation state := (state E).

(** le_val_is_del (ft/le-cursor.h, ft/ule.cc) for the cursor's transaction and
    read type; [fun _ => false] for a leaf mode cursor. *)
Variable del : L -> bool.

(** What a callback answers: 0, TOKUDB_CURSOR_CONTINUE,
    TOKUDB_FOUND_BUT_REJECTED, or any other code, such as DB_LOCK_NOTGRANTED. *)
Inductive ans := AOk | AMore | AReject | AErr.

(** FT_GET_CALLBACK_FUNCTION (ft/ft-ops.h): called with lock_only for a pivot,
    with a row, which is the next after the rows it has been given by the same
    call of the search function, and with no key at the end. *)
Record cb := Cb { cb_pivot : bytes -> ans; cb_row : list (bytes * L) -> bytes -> L -> ans; cb_end : ans }.

(** struct ft_search (ft/ft-search.h) without pivot_bound, which is passed
    separately because it changes. *)
Record srch := Srch { q_dir : sdir; q_fun : sfun; q_key : bytes; q_kbound : option bytes }.

(** The range a cursor has been restricted to (toku_ft_cursor_set_range_lock,
    ft/cursor.cc:113-135): left and right bound, and whether
    out_of_range_error is TOKUDB_FOUND_BUT_REJECTED. *)
Definition restr := option (bound * bound * bool).

(** toku_ft_cursor_check_restricted_range (ft/cursor.cc:239-254); [dir] is
    cursor->direction, [None] for 0.  [true]: within the range. *)
Definition in_restr (rst : restr) (dir : option sdir) (x : bytes) : bool :=
  match rst with
  | None => true
  | Some (l, r, _) =>
    negb (match l, dir with
          | Some l, Some SRight | Some l, None => kltb kcmp x l
          | _, _ => false
          end ||
          match r, dir with
          | Some r, Some SLeft | Some r, None => kltb kcmp r x
          | _, _ => false
          end)
  end.

(** What one attempt ends with: rows given to the callback with the new key of
    the cursor, and whether the last call of the callback failed; a stop at a
    pivot or at a row; DB_NOTFOUND; TOKUDB_TRY_AGAIN with the new pivot_bound. *)
Inductive sres :=
| RRows (rs : list (bytes * L)) (cur : bytes) (refused : bool)
| RStop (x : bytes) (pivot : bool) (rejected : bool)
| RNotFound
| RAgain (b : bytes).

(** search_continue (ft/ft-ops.cc:3315-3324), negated: [x] is beyond the search
    bound. *)
Definition past_kbound (q : srch) (x : bytes) : bool :=
  match q_dir q, q_kbound q with
  | SLeft, Some kb => kltb kcmp kb x
  | _, _ => false
  end.

(** The rows in the direction of the search, from the one where bn_data::find
    (ft/bndata.h) with heaviside_from_search_t (ft/ft-ops.cc:3326-3335) begins.
    Simplified: the dmt's binary search is a linear one here; the rows are
    sorted (FtInv.v) and the search function is monotone. *)
Definition in_dir (d : sdir) (rs : rows) : rows := match d with SLeft => rs | SRight => rev rs end.
Fixpoint from_first (p : bytes -> bool) (rs : rows) : rows :=
  match rs with
  | [] => []
  | x :: r => if p (fst x) then rs else from_first p r
  end.

(** The loop over deleted rows (ft/ft-ops.cc:3374-3412); [n] is n_deleted.  The
    interrupt callback is left out. *)
Fixpoint skip_del (q : srch) (n : N) (rs : rows) : rows :=
  match rs with
  | [] => []
  | (x, v) :: r =>
    if del v then
      if (n mod 64 =? 0)%N && past_kbound q x then [] else skip_del q (n + 1) r
    else rs
  end.

(** toku_ft_cursor_shortcut (ft/cursor.cc:256-306): the rows behind the one
    found, in the same basement node.  [hd] have been given to the callback.
    [cur] is what key points to: it moves to a row before the row is checked
    against the range and given to the callback (284-302). *)
Fixpoint shortcut (rst : restr) (d : sdir) (c : cb) (hd : rows) (cur : bytes) (rs : rows) : sres :=
  match rs with
  | [] => RRows hd cur false
  | (x, v) :: r =>
    if del v then shortcut rst d c hd cur r
    else if in_restr rst (Some d) x then
      match cb_row c hd x v with
      | AMore => shortcut rst d c (hd ++ [(x, v)]) x r
      | AOk => RRows (hd ++ [(x, v)]) x false
      | AReject | AErr => RRows hd x true
      end
    else RRows hd x false
  end.

(** ft_search_basement_node (ft/ft-ops.cc:3338-3448); [dir] is
    cursor->direction.  [None]: DB_NOTFOUND. *)
Definition bn_search (q : srch) (bulk : bool) (rst : restr) (dir : option sdir) (c : cb) (rs : rows) : option sres :=
  match skip_del q 1 (from_first (sf_compare kcmp (q_fun q) (q_key q)) (in_dir (q_dir q) rs)) with
  | [] => None
  | (x, v) :: r =>
    Some (if in_restr rst dir x then
            match cb_row c [] x v with
            | AMore => if bulk then shortcut rst (q_dir q) c [(x, v)] x r else RRows [(x, v)] x false
            | AOk => RRows [(x, v)] x false
            | AReject => RStop x false true
            | AErr => RStop x false false
            end
          else RStop x false (match rst with Some (_, _, j) => j | None => false end))
  end.

(** ft_search_node on a leaf (ft/ft-ops.cc:3774-3804): search the basement node
    and when its end is reached ask for the range up to the pivot. *)
Definition bn_step (q : srch) (bulk : bool) (rst : restr) (dir : option sdir) (c : cb) (lo hi : bound) (rs : rows) : sres :=
  match bn_search q bulk rst dir c rs with
  | Some r => r
  | None =>
    match match q_dir q with SLeft => hi | SRight => lo end with
    | None => RNotFound
    | Some p => match cb_pivot c p with
                | AOk => RNotFound
                | AReject => RStop p true true
                | AMore | AErr => RStop p true false
                end
    end
  end.

(** The rest of ft_search_node (ft/ft-ops.cc:3805-3824): after DB_NOTFOUND from
    child [i], maybe_search_save_bound (3699-3710) and search_try_again
    (3713-3729). *)
Definition saved (q : srch) (pv : list bytes) (i : nat) : bound :=
  match q_dir q with
  | SLeft => nth_error pv i
  | SRight => match i with O => None | S j => nth_error pv j end
  end.
Definition after (q : srch) (pv : list bytes) (i : nat) (r : sres) : sres :=
  match r with
  | RNotFound =>
    match saved q pv i with
    | Some p =>
      match q_dir q, q_kbound q with
      | SLeft, Some kb => if kltb kcmp p kb then RAgain p else RNotFound
      | _, _ => RAgain p
      end
    | None => RNotFound
    end
  | _ => r
  end.

(** ft_search_node and ft_search_child (ft/ft-ops.cc:3731-3824, 3557-3633); [b]
    is pivot_bound when the attempt begins.  The child of a node is chosen when
    the node is pinned (toku_ftnode_pf_req_callback, 1125-1139). *)
Definition leaf_search (g : G) (q : srch) (b : bound) (bulk : bool) (rst : restr) (dir : option sdir) (c : cb)
  (lo hi : bound) (an : ancs) (l : leaf) : res (leaf * ancs * sres) :=
  rdo i <- must (search_which_child kcmp (seg_pivots (l_parts l)) (q_dir q) (q_fun q) (q_key q) b);
  rdo (l', an', r) <- leaf_pin g i (bn_step q bulk rst dir c) lo hi an l;
  Ok (l', an', after q (seg_pivots (l_parts l)) i r).

Fixpoint search (h : nat) (g : G) (q : srch) (b : bound) (bulk : bool) (rst : restr) (dir : option sdir) (c : cb)
  (lo hi : bound) (an : ancs) (t : tree) : res (tree * ancs * sres) :=
  match t, h with
  | TLeaf l, _ => rdo (l', an', r) <- leaf_search g q b bulk rst dir c lo hi an l; Ok (TLeaf l', an', r)
  | TNode mx lk ch, S h =>
    when free lk;
    rdo i <- must (search_which_child kcmp (seg_pivots ch) (q_dir q) (q_fun q) (q_key q) b);
    rdo (ch', (an', r)) <- seg_upd lo hi i (fun lo hi x =>
      rdo (t', an', r) <- search h g q b bulk rst dir c lo hi ((mx, fst x) :: an) (snd x);
      match an' with
      | (_, buf') :: an'' => Ok (One (buf', t'), (an'', r))
      | [] => Fail
      end) ch;
    Ok (TNode mx lk ch', an', after q (seg_pivots ch) i r)
  | TNode _ _ _, O => Fail
  end.

(** The nodes a search goes through: no step depends on it. *)
Fixpoint search_path (h : nat) (q : srch) (b : bound) (t : tree) : list nat :=
  match t, h with
  | TNode _ _ ch, S h =>
    match search_which_child kcmp (seg_pivots ch) (q_dir q) (q_fun q) (q_key q) b with
    | Some i => i :: match nth_error (seg_list ch) i with Some x => search_path h q b (snd x) | None => [] end
    | None => []
    end
  | _, _ => []
  end.

(** One round of the loop of toku_ft_search (ft/ft-ops.cc:3836-3919). *)
Definition attempt (g : G) (q : srch) (b : bound) (bulk : bool) (rst : restr) (dir : option sdir) (c : cb) (s : state)
  : res (state * sres) :=
  rdo (t, _, r) <- search (height (s_tree s)) g q b bulk rst dir c None None [] (s_tree s);
  Ok (State (s_top s) t, r).

(** How toku_ft_search (ft/ft-ops.cc:3920-3942) ends; DB_NOTFOUND is what the
    caller sees for [ENotFound] and [ERejected]. *)
Inductive sout :=
| ERows (rs : list (bytes * L)) (cur : bytes) (refused : bool)
| ENotFound
| ERejected (x : bytes) (pivot : bool)
| EErr.
Definition finish (c : cb) (r : sres) : option sout :=
  match r with
  | RAgain _ => None
  | RRows rs cur f => Some (ERows rs cur f)
  | RStop x p j => Some (if j then ERejected x p else EErr)
  | RNotFound => Some (match cb_end c with AOk => ENotFound | _ => EErr end)
  end.

(** ** The cursor's operations (ft/cursor.cc) *)

Inductive cop :=
| CFirst | CLast | CNext | CPrev
| CSet (k : bytes) | CSetRange (k : bytes) (kb : option bytes) | CSetRangeReverse (k : bytes) | CCurrent.

(** The search of an operation, whether it can fetch in bulk, and
    cursor->direction; [key]: the cursor's key, not set for a new cursor, on
    which next is first and prev is last (c_getf_next, c_getf_prev,
    src/ydb_cursor.cc:323-346, 382-405).  [None]: EINVAL.
    toku_ft_cursor_first (ft/cursor.cc:221-228), last (230-237), next
    (308-318), prev (353-360), set (367-374), set_range (376-383),
    set_range_reverse (390-397), current (205-219). *)
Definition cop_search (key : option bytes) (o : cop) : option (srch * bool * option sdir) :=
  match o, key with
  | CFirst, _ | CNext, None => Some (Srch SLeft CmpOne [] None, false, None)
  | CLast, _ | CPrev, None => Some (Srch SRight CmpOne [] None, false, None)
  | CNext, Some k => Some (Srch SLeft CmpNext k None, true, Some SLeft)
  | CPrev, Some k => Some (Srch SRight CmpPrev k None, true, Some SRight)
  | CSet k, _ => Some (Srch SLeft CmpSet k None, false, None)
  | CSetRange k kb, _ => Some (Srch SLeft CmpSet k kb, false, None)
  | CSetRangeReverse k, _ => Some (Srch SRight CmpRevSet k None, false, None)
  | CCurrent, Some k => Some (Srch SLeft CmpSet k None, false, None)
  | CCurrent, None => None
  end.

(** ft_cursor_search_eq_k_x_getf (ft/cursor.cc:320-339) and
    ft_cursor_current_getf (178-198): a row or a pivot with another key ends the
    search. *)
Definition only_key (k : bytes) (c : cb) : cb :=
  Cb (fun p => if keqb kcmp k p then cb_pivot c p else match cb_end c with AOk => AReject | a => a end)
     (fun hd x v => if keqb kcmp k x then cb_row c hd x v else match cb_end c with AOk => AReject | a => a end)
     (cb_end c).
Definition cop_cb (key : option bytes) (o : cop) (c : cb) : cb :=
  match o, key with
  | CSet k, _ | CCurrent, Some k => only_key k c
  | _, _ => c
  end.

End Cur.
Arguments cb : clear implicits.
Arguments sres : clear implicits.
Arguments sout : clear implicits.

(** ** Runs *)
Section Runs.
Context {E : env}.
Local Notation state := (state E).

(** Everything else that may happen: operations of FtModel.v and attempts of
    other searches. *)
Inductive xstep : list (gmsg (A E)) -> state -> list (gmsg (A E)) -> state -> Prop :=
| x_op h s o s' r : step o s = Ok (s', r) -> xstep h s (h ++ injected o) s'
| x_try h s del g q b bulk rst dir c s' r : sf_dir (q_dir q) (q_fun q) = true -> attempt del g q b bulk rst dir c s = Ok (s', r) -> xstep h s h s'.
Inductive xsteps : list (gmsg (A E)) -> state -> list (gmsg (A E)) -> state -> Prop :=
| xs_nil h s : xsteps h s h s
| xs_cons h s h1 s1 h2 s2 : xstep h s h1 s1 -> xsteps h1 s1 h2 s2 -> xsteps h s h2 s2.

(** Reachable trees with the messages injected so far. *)
Definition xreach (h : list (gmsg (A E))) (s : state) : Prop := xsteps [] init h s.

(** A whole search, from pivot_bound [b] on: other things happen between the
    attempts, the callback may answer differently each time ([cbs]: which
    callbacks there may be at which time).  [hs] are the
    messages injected up to each attempt. *)
Inductive search_run (del : L E -> bool) (q : srch) (bulk : bool) (rst : restr) (dir : option sdir) (cbs : list (gmsg (A E)) -> cb E -> Prop)
  : bound -> list (gmsg (A E)) -> state -> list (list (gmsg (A E))) -> sout E -> list (gmsg (A E)) -> state -> Prop :=
| sr_other b h s h1 s1 hs o h2 s2 :
    xsteps h s h1 s1 -> search_run del q bulk rst dir cbs b h1 s1 hs o h2 s2 -> search_run del q bulk rst dir cbs b h s hs o h2 s2
| sr_again b h s g c s1 b' hs o h2 s2 :
    cbs h c -> attempt del g q b bulk rst dir c s = Ok (s1, RAgain b') ->
    search_run del q bulk rst dir cbs (Some b') h s1 hs o h2 s2 -> search_run del q bulk rst dir cbs b h s (h :: hs) o h2 s2
| sr_done b h s g c s1 r o :
    cbs h c -> attempt del g q b bulk rst dir c s = Ok (s1, r) -> finish c r = Some o -> search_run del q bulk rst dir cbs b h s [h] o h s1.

(** The callbacks of src/ydb_cursor.cc (c_getf_first_callback, 242-268, and its
    likes): they take row locks and return what the user's function returns.
    None of them returns TOKUDB_FOUND_BUT_REJECTED by itself, and the end of
    the dictionary, where the user's function is not called, is never answered
    with TOKUDB_CURSOR_CONTINUE. *)
Definition proper (c : cb E) : Prop :=
  (forall hd x v, cb_row c hd x v <> AReject) /\ (forall p, cb_pivot c p <> AReject) /\ cb_end c <> AMore /\ cb_end c <> AReject.

(** An operation of a cursor that has key [key]; [P]: which callbacks there may
    be at which time. *)
Definition cursor_op (del : L E -> bool) (P : list (gmsg (A E)) -> cb E -> Prop) (key : option bytes) (rst : restr) (o : cop) (h : list (gmsg (A E))) (s : state)
  (hs : list (list (gmsg (A E)))) (r : sout E) (h' : list (gmsg (A E))) (s' : state) : Prop :=
  exists q bulk dir, cop_search key o = Some (q, bulk, dir) /\
    search_run del q bulk rst dir (fun h c => exists c0, proper c0 /\ P h c0 /\ c = cop_cb key o c0) None h s hs r h' s'.
End Runs.
