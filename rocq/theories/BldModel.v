(** Model of building an index while other threads write: the loop of build_index
    (src/indexer.cc:527-616), the position of its cursor (ft/le-cursor.cc), and the
    writers put_multiple, del_multiple and update_multiple (src/ydb_write.cc), which
    must write to the new ("hot") dictionaries exactly those rows the loop will not
    reach any more.  Any number of threads, interleaved at single row writes.

    Simplified: every write is final (what open transactions do to one row of the
    source is C50); keys that compare equal are the same bytes; the callbacks never
    fail; the rows of an update are compared as sets (the merge loop is C49); the
    source row is fetched in one step with the move of the cursor (the leaf is pinned
    while the row is copied, indexer.cc:485-525); the lock of the multi operations is
    shared by all writers and the indexer and orders nothing here.

    Definitions only. *)
From Verif Require Import Base Bytes KOrd.
Open Scope N_scope.

(** Where the cursor of the indexer is (struct le_cursor, ft/le-cursor.cc:50-54). *)
Inductive cpos := PosInf | AtKey (k : bytes) | NegInf.

(** One message to one dictionary. *)
Inductive wr := WSrc (k : bytes) (v : option bytes) | WHot (d : nat) (h : bytes) (v : option bytes).

(** The loops of do_del_multiple and do_put_multiple (src/ydb_write.cc:405-440,
    603-645) for one dictionary: write, or ask the indexer about the source key and
    write if it says so. *)
Inductive act := AWr (w : wr) | AIf (k : bytes) (ws : list wr).

(** Calls of put_multiple, del_multiple and update_multiple. *)
Inductive op := OPut (k v : bytes) | ODel (k v : bytes) | OUpd (k v k' v' : bytes).

(** A writing thread.  [Called]: rows generated and locked; [Blocked]: waits for the
    lock of the indexer; [Going locked acts]: still has to do [acts]. *)
Inductive thread :=
  | Idle
  | Called (o : op) (arr : list (option nat)) (same : bool)
  | Blocked (o : op) (arr : list (option nat))
  | Going (locked : bool) (o : op) (acts : list act).

(** Who holds the lock of the indexer (indexer.cc:164-172). *)
Inductive holder := Free | ByIndexer | ByThread (i : nat).

Record bstate := mkB {
  bsrc : list (bytes * bytes);             (* the source dictionary *)
  bhot : nat -> bytes -> option bytes;     (* the hot dictionaries *)
  bpos : cpos;                             (* cursor of the indexer *)
  best : option bytes;                     (* position_estimate *)
  bown : holder;
  bpend : list wr;                         (* what the indexer still sends for its row *)
  bthr : nat -> thread
}.

Definition same_key (a b : bytes) : bool := if list_eq_dec N.eq_dec a b then true else false.

(** The source dictionary as a map (C20). *)
Fixpoint sget (l : list (bytes * bytes)) (k : bytes) : option bytes :=
  match l with
  | [] => None
  | (k', v) :: l' => if same_key k' k then Some v else sget l' k
  end.
Definition sset (l : list (bytes * bytes)) (k : bytes) (v : option bytes) : list (bytes * bytes) :=
  let l' := filter (fun r => negb (same_key (fst r) k)) l in
  match v with Some x => (k, x) :: l' | None => l' end.
Definition hset (f : nat -> bytes -> option bytes) (d : nat) (h : bytes) (v : option bytes) :=
  fun d' h' => if (d' =? d)%nat && same_key h' h then v else f d' h'.

Section Bld.
Variable c : bytes -> bytes -> comparison.
(** generate_row_for_put: hot dictionary, source key, source value.
    generate_row_for_del gives the keys of these rows. *)
Variable gen : nat -> bytes -> bytes -> list (bytes * bytes).
(** The number of dictionaries the indexer builds. *)
Variable ndb : nat.
(** Whether there are calls whose source is not the source of the indexer. *)
Variable others : bool.

(** toku_le_cursor_is_key_greater_or_equal, ft/le-cursor.cc:106-124 (and
    toku_indexer_should_insert_key, src/indexer.cc:349-358). *)
Definition passed (p : cpos) (k : bytes) : bool :=
  match p with NegInf => true | PosInf => false | AtKey q => kleb c q k end.

(** toku_indexer_may_insert, src/indexer.cc:180-205. *)
Definition may_insert (e : option bytes) (k : bytes) : bool :=
  match e with None => false | Some q => kltb c q k end.

(** toku_le_cursor_update_estimate, ft/le-cursor.cc:126-138. *)
Definition new_estimate (p : cpos) (e : option bytes) : option bytes :=
  match p with AtKey q => Some q | _ => e end.

(** The row before the cursor (DB_PREV): the largest key below it. *)
Definition below (p : cpos) (k : bytes) : bool :=
  match p with PosInf => true | AtKey q => kltb c k q | NegInf => false end.
Fixpoint largest (l : list (bytes * bytes)) : option (bytes * bytes) :=
  match l with
  | [] => None
  | r :: l' => match largest l' with
               | Some r' => if kltb c (fst r) (fst r') then Some r' else Some r
               | None => Some r
               end
  end.
Definition prev_row (l : list (bytes * bytes)) (p : cpos) : option (bytes * bytes) :=
  largest (filter (fun r => below p (fst r)) l).

Definition puts (d : nat) (rows : list (bytes * bytes)) : list wr := map (fun r => WHot d (fst r) (Some (snd r))) rows.
Definition dels (d : nat) (keys : list bytes) : list wr := map (fun h => WHot d h None) keys.

Definition has_key (h : bytes) (rows : list (bytes * bytes)) : bool := existsb (fun r => same_key (fst r) h) rows.
(** The rows update_multiple deletes, and those it puts: not those with an old key
    and an empty new value (src/ydb_write.cc:876-992). *)
Definition upd_dels (old new : list (bytes * bytes)) : list bytes :=
  filter (fun h => negb (has_key h new)) (map fst old).
Definition upd_puts (old new : list (bytes * bytes)) : list (bytes * bytes) :=
  filter (fun r => negb (has_key (fst r) old && (len (snd r) =? 0))) new.

(** One turn of the loop of do_put_multiple: a dictionary without rows is passed
    over without asking. *)
Definition ask_put (d : nat) (k : bytes) (rows : list (bytes * bytes)) : list act :=
  match rows with [] => [] | _ => [AIf k (puts d rows)] end.
(** One turn of the loop of do_del_multiple. *)
Definition ask_del (d : nat) (k : bytes) (keys : list bytes) : list act := [AIf k (dels d keys)].

Definition put_act (k v : bytes) (x : option nat) : list act :=
  match x with None => [AWr (WSrc k (Some v))] | Some d => ask_put d k (gen d k v) end.
Definition del_act (k v : bytes) (x : option nat) : list act :=
  match x with None => [AWr (WSrc k None)] | Some d => ask_del d k (map fst (gen d k v)) end.
(** del_dbs and put_dbs of update_multiple (src/ydb_write.cc:998-1014); the source
    dictionary has its key as only row, so it is deleted from only if the key changes. *)
Definition upd_del_act (k v k' v' : bytes) (x : option nat) : list act :=
  match x with
  | None => if same_key k k' then [] else [AWr (WSrc k None)]
  | Some d => match upd_dels (gen d k v) (gen d k' v') with [] => [] | l => ask_del d k l end
  end.
Definition upd_put_act (k v k' v' : bytes) (x : option nat) : list act :=
  match x with
  | None => if same_key k k' && (len v' =? 0) then [] else [AWr (WSrc k' (Some v'))]
  | Some d => ask_put d k' (upd_puts (gen d k v) (gen d k' v'))
  end.

(** What the call does, dictionary by dictionary in the order of db_array. *)
Definition acts_of (o : op) (arr : list (option nat)) : list act :=
  match o with
  | OPut k v => concat (map (put_act k v) arr)
  | ODel k v => concat (map (del_act k v) arr)
  | OUpd k v k' v' => concat (map (upd_del_act k v k' v') arr) ++ concat (map (upd_put_act k v k' v') arr)
  end.
(** With indexer_shortcut nothing is asked. *)
Definition unasked (a : act) : list act := match a with AWr w => [AWr w] | AIf _ ws => map AWr ws end.

(** The source keys of a call, which it locks (the lock tree, C09 and C10). *)
Definition keys_of (o : op) : list bytes :=
  match o with OPut k _ => [k] | ODel k _ => [k] | OUpd k _ k' _ => [k; k'] end.
Definition thread_keys (t : thread) : list bytes :=
  match t with Idle => [] | Called o _ _ => keys_of o | Blocked o _ => keys_of o | Going _ o _ => keys_of o end.

Definition do_wr (w : wr) (s : bstate) : bstate :=
  match w with
  | WSrc k v => mkB (sset (bsrc s) k v) (bhot s) (bpos s) (best s) (bown s) (bpend s) (bthr s)
  | WHot d h v => mkB (bsrc s) (hset (bhot s) d h v) (bpos s) (best s) (bown s) (bpend s) (bthr s)
  end.
Definition set_thr (s : bstate) (i : nat) (t : thread) : bstate :=
  mkB (bsrc s) (bhot s) (bpos s) (best s) (bown s) (bpend s) (fun j => if (j =? i)%nat then t else bthr s j).
Definition set_own (s : bstate) (o : holder) : bstate :=
  mkB (bsrc s) (bhot s) (bpos s) (best s) o (bpend s) (bthr s).
Definition set_est (s : bstate) (e : option bytes) : bstate :=
  mkB (bsrc s) (bhot s) (bpos s) e (bown s) (bpend s) (bthr s).

(** What the caller must see to: a put is of a new row, the old value given is the
    value of the row, and the row an update moves to is new.  A new value that is
    empty under an unchanged key would be skipped (C49). *)
Definition call_ok (l : list (bytes * bytes)) (o : op) : Prop :=
  match o with
  | OPut k _ => sget l k = None
  | ODel k v => sget l k = Some v
  | OUpd k v k' v' => sget l k = Some v /\ (k = k' \/ sget l k' = None) /\ (k = k' -> v' = [] -> v = [])
  end.

Inductive step : bstate -> bstate -> Prop :=
  (** A call, up to and including the locks on its rows (src/ydb_write.cc:481-560).
      db_array has the source and all dictionaries the indexer builds; [same]: the
      source of the call is the source of the indexer (get_indexer_if_exists). *)
  | SCall s i o arr same :
      bthr s i = Idle -> call_ok (bsrc s) o -> (same = false -> others = true) ->
      In None arr -> (forall d, (d < ndb)%nat -> In (Some d) arr) -> (forall d, In (Some d) arr -> (d < ndb)%nat) ->
      (forall j k, In k (keys_of o) -> ~ In k (thread_keys (bthr s j))) ->
      step s (set_thr s i (Called o arr same))
  (** The cheap check (src/ydb_write.cc:562-575, 742-755, 1016-1031).  A call with
      another source asks the indexer, but without its lock. *)
  | SShort s i o arr :
      bthr s i = Called o arr true -> forallb (may_insert (best s)) (keys_of o) = true ->
      step s (set_thr s i (Going false o (concat (map unasked (acts_of o arr)))))
  | SBlock s i o arr :
      bthr s i = Called o arr true -> forallb (may_insert (best s)) (keys_of o) = false ->
      step s (set_thr s i (Blocked o arr))
  | SOther s i o arr :
      bthr s i = Called o arr false ->
      step s (set_thr s i (Going false o (acts_of o arr)))
  | SLock s i o arr :
      bthr s i = Blocked o arr -> bown s = Free ->
      step s (set_own (set_thr s i (Going true o (acts_of o arr))) (ByThread i))
  (** One write; one question to the indexer, which also moves its estimate. *)
  | SWrite s i b o w acts :
      bthr s i = Going b o (AWr w :: acts) ->
      step s (do_wr w (set_thr s i (Going b o acts)))
  | SAsk s i b o k ws acts :
      bthr s i = Going b o (AIf k ws :: acts) ->
      step s (set_est (set_thr s i (Going b o ((if passed (bpos s) k then map AWr ws else []) ++ acts)))
                      (new_estimate (bpos s) (best s)))
  | SReturn s i b o :
      bthr s i = Going b o [] ->
      step s (set_own (set_thr s i Idle) (if b then Free else bown s))
  (** One turn of build_index (src/indexer.cc:531-592): take the lock, move the
      cursor, send the rows, release the lock. *)
  | SNext s k v :
      bown s = Free -> prev_row (bsrc s) (bpos s) = Some (k, v) ->
      step s (mkB (bsrc s) (bhot s) (AtKey k) (best s) ByIndexer
                  (concat (map (fun d => puts d (gen d k v)) (seq 0 ndb))) (bthr s))
  | SLast s :
      bown s = Free -> prev_row (bsrc s) (bpos s) = None ->
      step s (mkB (bsrc s) (bhot s) NegInf (best s) ByIndexer [] (bthr s))
  | SSend s w ws :
      bown s = ByIndexer -> bpend s = w :: ws ->
      step s (do_wr w (mkB (bsrc s) (bhot s) (bpos s) (best s) (bown s) ws (bthr s)))
  | SEnd s :
      bown s = ByIndexer -> bpend s = [] -> step s (set_own s Free).

(** toku_indexer_create_indexer: empty hot dictionaries, the cursor after the last row. *)
Definition bstart (l : list (bytes * bytes)) : bstate :=
  mkB l (fun _ _ => None) PosInf None Free [] (fun _ => Idle).

Inductive reach (l : list (bytes * bytes)) : bstate -> Prop :=
  | RStart : reach l (bstart l)
  | RStep s s' : reach l s -> step s s' -> reach l s'.
End Bld.
