(** Cursors over a whole dictionary under transactions: the searches of CurModel.v
    in the system of DbModel.v.  Definitions only. *)
From Verif Require Import Base Bytes KOrd PivotModel UleModel MgrModel MvccModel.
From Verif Require Import FtModel FtSpec OrkModel DbModel CurModel CurSpec.
Open Scope nat_scope.

(** le_val_is_del and le_extract_val (ft/ule.cc:2254-2274, 2416-2440) for a cursor
    with read type [rt] of the transaction [rd] (toku_ft_cursor_create,
    ft/cursor.cc:40-72).  What an assertion that fails leaves is neither deleted nor
    has a value. *)
Definition cgone (rt : read_type) (rd : reader) (v : stored) : bool :=
  match v with
  | Some u => match le_read rt rd u with Some None => true | _ => false end
  | None => false
  end.
Definition cvalue (rt : read_type) (rd : reader) (v : stored) : option (list N) :=
  match v with
  | Some u => match le_read rt rd u with Some x => x | None => None end
  | None => None
  end.

Section DbCur.
Context (c : bytes -> bytes -> comparison).
Local Notation E := (EV c).
Local Notation db := (db c).

(** One attempt of a search.  The leaf it comes to is brought up to date with the
    leaf's own garbage collection information, as for a query
    (toku_apply_ancestors_messages_to_node, ft/node.cc:588-597). *)
Definition dtry (d : db) (z : zsel) (del : stored -> bool) (q : srch) (b : bound) (bulk : bool) (rst : restr) (dir : option sdir) (cbk : cb E)
  : res (db * sres E) :=
  let s := d_tree d in
  rdo g <- info c d z (search_path (height (s_tree s)) q b (s_tree s));
  rdo (t, r) <- attempt (E:=E) del g q b bulk rst dir cbk s;
  Ok (mkDb c (d_ms d) (d_txns d) (d_lock d) (d_sent d) (d_looks d ++ [now (length (d_sent d)) (d_ms d)]) (d_trace d) t (d_ork d), r).

(** Steps of clients and of the tree, of those that [may] happen, and attempts of
    any search. *)
Inductive qstep (may : dop -> Prop) (d d' : db) : Prop :=
| q_op o r : may o -> dop_legal c d o -> ids_left (d_ms d) -> dstep c d o = Ok (d', r) -> qstep may d d'
| q_try z del q b bulk rst dir cbk r : sf_dir (q_dir q) (q_fun q) = true -> ids_left (d_ms d) ->
    dtry d z del q b bulk rst dir cbk = Ok (d', r) -> qstep may d d'.
Inductive qsteps (may : dop -> Prop) : db -> db -> Prop :=
| qs_nil d : qsteps may d d
| qs_cons d d1 d' : qstep may d d1 -> qsteps may d1 d' -> qsteps may d d'.
Definition anything (o : dop) : Prop := True.
Definition qreach (last : txnid) (d : db) : Prop := (last < TXNID_MAX)%N /\ qsteps anything (db_init c last) d.

(** A whole search, as [search_run] of CurModel.v; [ds] are the dictionaries after
    each attempt, [cbs d cbk]: the callback may be [cbk] when the dictionary is
    [d]. *)
Inductive dsearch (may : dop -> Prop) (del : stored -> bool) (q : srch) (bulk : bool) (rst : restr) (dir : option sdir) (cbs : db -> cb E -> Prop)
  : bound -> db -> list db -> sout E -> db -> Prop :=
| ds_other b d d1 ds o d2 : qsteps may d d1 -> dsearch may del q bulk rst dir cbs b d1 ds o d2 -> dsearch may del q bulk rst dir cbs b d ds o d2
| ds_again b d z cbk d1 b' ds o d2 : cbs d cbk -> ids_left (d_ms d) -> dtry d z del q b bulk rst dir cbk = Ok (d1, RAgain b') ->
    dsearch may del q bulk rst dir cbs (Some b') d1 ds o d2 -> dsearch may del q bulk rst dir cbs b d (d1 :: ds) o d2
| ds_done b d z cbk d1 r o : cbs d cbk -> ids_left (d_ms d) -> dtry d z del q b bulk rst dir cbk = Ok (d1, r) -> finish cbk r = Some o ->
    dsearch may del q bulk rst dir cbs b d [d1] o d1.

(** An operation of a cursor with key [key]. *)
Definition dcursor (may : dop -> Prop) (del : stored -> bool) (P : db -> cb E -> Prop) (key : option bytes) (rst : restr) (o : CurModel.cop)
  (d : db) (ds : list db) (r : sout E) (d' : db) : Prop :=
  exists q bulk dir, cop_search key o = Some (q, bulk, dir) /\
    dsearch may del q bulk rst dir (fun d cbk => exists c0, proper c0 /\ P d c0 /\ cbk = cop_cb (E:=E) key o c0) None d ds r d'.

(** A scan: the operation [o] (next or prev) again and again until it finds
    nothing; an operation that fails is repeated. *)
Inductive dscan (may : dop -> Prop) (del : stored -> bool) (P : db -> cb E -> Prop) (rst : restr) (o : CurModel.cop)
  : option bytes -> db -> list db -> list (bytes * stored) -> db -> Prop :=
| dc_other key d d1 ds rs d2 : qsteps may d d1 -> dscan may del P rst o key d1 ds rs d2 -> dscan may del P rst o key d ds rs d2
| dc_err key d ds1 d1 ds rs d2 : dcursor may del P key rst o d ds1 EErr d1 -> dscan may del P rst o key d1 ds rs d2 -> dscan may del P rst o key d (ds1 ++ ds) rs d2
| dc_rows key d ds1 out cur d1 ds rs d2 : dcursor may del P key rst o d ds1 (ERows (E:=E) out cur false) d1 ->
    dscan may del P rst o (Some cur) d1 ds rs d2 -> dscan may del P rst o key d (ds1 ++ ds) (out ++ rs) d2
| dc_end key d ds r d1 : dcursor may del P key rst o d ds r d1 -> r = ENotFound \/ (exists x p, r = ERejected x p) -> dscan may del P rst o key d ds [] d1.

(** What the other transactions do: not [r], and snapshot [s] of [r] is not given
    back. *)
Definition not_by (r : txnid) (s : txnid) (o : dop) : Prop :=
  match o with
  | DClient o _ =>
    match o with
    | CBegin _ _ | COptimize _ => True
    | CChildSnapEnd s' => s' <> s
    | CChildSnap x | CChild x | CLock x _ | CWrite x _ _ | CChildCommit x | CAbort x | CAbortMsg x | CAbortDone x
    | CCommit x | CCommitMsg x | CCommitDone x => x <> r
    end
  | _ => True
  end.
End DbCur.
