(** Model of the waits-for graph and of its construction.

    Source: locktree/wfg.cc, locktree/lock_request.cc:128-168.

    Simplification: a graph is the sorted list of its nodes with their edges; the
    node's visited flag, which every search resets before it returns, is the list
    [vis] of the nodes being visited. *)
From Verif Require Import Base Bytes LtTreeModel LtModel.
Open Scope N_scope.

(** class wfg (locktree/wfg.h:67-126). *)
Definition wfg := list (txnid * list txnid).

(** wfg::find_node (locktree/wfg.cc:153-158): the edges of the node. *)
Fixpoint find_node (x : txnid) (w : wfg) : option (list txnid) :=
  match w with
  | [] => None
  | (y, es) :: w' => if x =? y then Some es else find_node x w'
  end.

(** wfg::find_create_node (locktree/wfg.cc:174-186). *)
Fixpoint create_node (x : txnid) (w : wfg) : wfg :=
  match w with
  | [] => [(x, [])]
  | (y, es) :: w' =>
    if x <? y then (x, []) :: w
    else if x =? y then w
    else (y, es) :: create_node x w'
  end.

Fixpoint put_edge (a b : txnid) (w : wfg) : wfg :=
  match w with
  | [] => []
  | (y, es) :: w' => if a =? y then (y, set_add b es) :: w' else (y, es) :: put_edge a b w'
  end.

(** wfg::add_edge (locktree/wfg.cc:80-84). *)
Definition add_edge (a b : txnid) (w : wfg) : wfg :=
  put_edge a b (create_node b (create_node a w)).

(** wfg::node_exists (locktree/wfg.cc:88-91). *)
Definition node_exists (x : txnid) (w : wfg) : bool := is_some (find_node x w).

(** wfg::cycle_exists_from_node (locktree/wfg.cc:93-110).  [n] bounds the depth;
    running out of it is an error the proofs exclude. *)
Fixpoint cycle_from (n : nat) (w : wfg) (target : txnid) (vis : list txnid) (head : txnid)
  : option bool :=
  match n with
  | O => None
  | S n' =>
    match find_node head w with
    | None => None
    | Some es =>
      let fix edges (es : list txnid) : option bool :=
        match es with
        | [] => Some false
        | e :: es' =>
          if target =? e then Some true
          else if is_some (find_node e w) && negb (existsb (N.eqb e) (head :: vis)) then
            do c <- cycle_from n' w target (head :: vis) e;
            if (c : bool) then Some true else edges es'
          else edges es'
        end in
      edges es
    end
  end.

(** wfg::cycle_exists_from_txnid (locktree/wfg.cc:114-121). *)
Definition cycle_exists (w : wfg) (x : txnid) : option bool :=
  match find_node x w with
  | None => Some false
  | Some _ => cycle_from (S (length w)) w x [] x
  end.

(** The pending lock requests of the dictionary, in the order of their ids
    (lt_lock_request_info::pending_lock_requests, locktree/locktree.h:107-120). *)
Definition pending := list (txnid * rng).

(** find_lock_request (locktree/lock_request.cc:431-438). *)
Fixpoint find_req (x : txnid) (p : pending) : option rng :=
  match p with
  | [] => None
  | (y, g) :: p' => if x =? y then Some g else find_req x p'
  end.

(** insert_into_lock_requests (locktree/lock_request.cc:441-450). *)
Fixpoint insert_req (x : txnid) (g : rng) (p : pending) : option pending :=
  match p with
  | [] => Some [(x, g)]
  | (y, h) :: p' =>
    if x <? y then Some ((x, g) :: p)
    else if x =? y then None   (* invariant(r == DB_NOTFOUND) fails *)
    else do r <- insert_req x g p'; Some ((y, h) :: r)
  end.

(** remove_from_lock_requests (locktree/lock_request.cc:453-465). *)
Fixpoint remove_req (x : txnid) (p : pending) : option pending :=
  match p with
  | [] => None   (* invariant_zero(r) fails *)
  | (y, h) :: p' => if x =? y then Some p' else do r <- remove_req x p'; Some ((y, h) :: r)
  end.

Section Wfg.

Variable kcmp : bytes -> bytes -> comparison.

(** lock_request::build_wait_graph (locktree/lock_request.cc:138-160), of the
    request of [x] whose conflicts are [cs].  [n] bounds the depth. *)
Fixpoint build (n : nat) (p : pending) (x : txnid) (cs : list txnid) (s : lt) (w : wfg)
  : option (lt * wfg) :=
  match n with
  | O => None
  | S n' =>
    let fix go (cs : list txnid) (s : lt) (w : wfg) : option (lt * wfg) :=
      match cs with
      | [] => Some (s, w)
      | c :: cs' =>
        guard negb (c =? x);
        match find_req c p with
        | None => go cs' s w
        | Some g =>
          let ex := node_exists c w in
          let w1 := add_edge x c w in
          if ex then go cs' s w1
          else do (cs2, s1) <- get_conflicts kcmp s c g;
               do (s2, w2) <- build n' p c cs2 s1 w1;
               go cs' s2 w2
        end
      end in
    go cs s w
  end.

(** lock_request::deadlock_exists (locktree/lock_request.cc:164-173). *)
Definition deadlock_exists (p : pending) (x : txnid) (cs : list txnid) (s : lt)
  : option (bool * lt) :=
  do (s', w) <- build (S (length p)) p x cs s [];
  do b <- cycle_exists w x;
  Some (b, s').

End Wfg.
