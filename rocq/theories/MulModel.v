(** Writes to several dictionaries at once: DB_ENV->put_multiple, del_multiple and
    update_multiple (src/ydb_write.cc), what they log, and what recovery does with
    the log records.

    Simplifications:
    - A dictionary is a function from keys to values, as the calling transaction
      sees it; keys the comparator calls equal are one row (the leaf keeps the bytes
      of the first of them, bn_data::get_space_for_overwrite, ft/bndata.cc:387-415).
    - No hot index is being built (get_indexer_if_exists finds none), the
      environment has not panicked, the transaction is not read-only and has no
      open child.
    - Other transactions appear only as locks that are not granted.
    - toku_ft_insert_unique looks the key up in the dictionary (the rightmost leaf
      shortcut is C23).
    Definitions only. *)
From Verif Require Import Base Bytes LtSpec KOrd.
Open Scope nat_scope.

(** The flags of one dictionary (buildheader/make_tdb.cc:197-238): whether
    DB_PRELOCKED_WRITE is set, and what remains without the prelocked flags. *)
Inductive rest := FNone | FNoOverwrite | FNoOverwriteNoError | FDeleteAny | FOther.
Record flags := mkFlags { f_prelocked : bool; f_rest : rest }.

Inductive err := EInval | ENoMem | EKeyExist | ENotFound | ELock | EGen | EBug.

(** Log records: enq_insert_multiple, enq_delete_multiple, enq_delete_any
    (ft/logger/logformat.cc:124-184). *)
Inductive lrec :=
| LPutMulti (src : option nat) (dbs : list nat) (k v : bytes)
| LDelMulti (src : option nat) (dbs : list nat) (k v : bytes)
| LDel (d : nat) (k : bytes).

Record mst := mkMst { m_rows : nat -> bytes -> option bytes; m_locks : list (nat * bytes); m_log : list lrec }.

(** The callbacks generate_row_for_put and generate_row_for_del (asked for keys
    only, generate_row_for_put gives the same keys), which locks are granted, which
    dictionaries have a lock tree, and the overheads of log records. *)
Record menv := mkMenv {
  e_cmp : nat -> bytes -> bytes -> comparison;
  e_put : nat -> option nat -> bytes -> bytes -> option (list (bytes * bytes));
  e_del : nat -> option nat -> bytes -> bytes -> option (list bytes);
  e_grant : nat -> bytes -> bool;
  e_lt : nat -> bool;
  e_ov_multi : N;
  e_ov_any : N
}.

(** Sizes equal and memcmp zero (src/ydb_write.cc:932-934). *)
Fixpoint same_bytes (a b : bytes) : bool :=
  match a, b with [], [] => true | x :: a, y :: b => (x =? y)%N && same_bytes a b | _, _ => false end.

(** An outcome: the state, and 0 or an error. *)
Definition out : Type := mst * option err.
Definition thn (x : out) (f : mst -> out) : out := match x with (s, None) => f s | r => r end.

Section Mul.
Context (e : menv).
Implicit Types (s : mst) (d : nat) (k v : bytes).

Definition same_src (src : option nat) d : bool := match src with Some x => x =? d | None => false end.

(** toku_db_get_point_write_lock, called unless prelocked (src/ydb_row_lock.cc:226-230). *)
Definition point_lock s d (fl : flags) k : out :=
  if e_lt e d && negb (f_prelocked fl) then
    if e_grant e d k then (mkMst (m_rows s) ((d, k) :: m_locks s) (m_log s), None) else (s, Some ELock)
  else (s, None).

(** db_getf_set with DB_SERIALIZABLE|DB_RMW: the row is write locked, found or not
    (src/ydb_db.cc:230-243; src/ydb_cursor.cc:152-198, 610-660). *)
Definition getf_set s d fl k : out :=
  thn (point_lock s d fl k) (fun s => (s, match m_rows s d k with Some _ => None | None => Some ENotFound end)).

(** src/ydb_write.cc:110-127; ft/ft-ops.cc toku_ft_get_maximum_advised_key_value_lengths. *)
Definition size_ok k v : bool := (len k <=? 32 * 1024)%N && (len v <=? 32 * 1024 * 1024)%N.

(** src/ydb_write.cc:129-157. *)
Definition check_overwrite s d fl k : out :=
  match f_rest fl with
  | FNone => (s, None)
  | FNoOverwrite =>
    match getf_set s d fl k with
    | (s, Some ENotFound) => (s, None)
    | (s, None) => (s, Some EKeyExist)
    | r => r
    end
  | FNoOverwriteNoError => (s, None)
  | _ => (s, Some EInval)
  end.

Definition put_row s d k v : mst :=
  mkMst (fun d' y => if (d' =? d) && keqb (e_cmp e d) y k then Some v else m_rows s d' y) (m_locks s) (m_log s).
Definition del_row s d k : mst :=
  mkMst (fun d' y => if (d' =? d) && keqb (e_cmp e d) y k then None else m_rows s d' y) (m_locks s) (m_log s).
Definition log_rec s (r : lrec) : mst := mkMst (m_rows s) (m_locks s) (m_log s ++ [r]).

(** db_put with do_log = false (src/ydb_write.cc:204-230). *)
Definition db_put s d k v (f : rest) : out :=
  match f with
  | FNone => (put_row s d k v, None)
  | FNoOverwrite => match m_rows s d k with Some _ => (s, Some EKeyExist) | None => (put_row s d k v, None) end
  | FNoOverwriteNoError => (match m_rows s d k with Some _ => s | None => put_row s d k v end, None)
  | _ => (s, Some EInval)
  end.

(** do_put_multiple (src/ydb_write.cc:601-650); [ff]: the flag that goes with the
    dictionary, 0 when remaining_flags is null. *)
Fixpoint put_rows s d (kvs : list (bytes * bytes)) (f : rest) : out :=
  match kvs with
  | [] => (s, None)
  | (k, v) :: kvs =>
    match f with
    | FNoOverwriteNoError => (s, Some EBug)
    | _ => thn (db_put s d k v f) (fun s => put_rows s d kvs f)
    end
  end.
Fixpoint do_put s (l : list (nat * list (bytes * bytes) * rest)) : out :=
  match l with
  | [] => (s, None)
  | (d, kvs, f) :: l => thn (put_rows s d kvs f) (fun s => do_put s l)
  end.
(** do_del_multiple (src/ydb_write.cc:410-446). *)
Fixpoint do_del s (l : list (nat * list bytes)) : mst :=
  match l with
  | [] => s
  | (d, ks) :: l => do_del (fold_left (fun s k => del_row s d k) ks s) l
  end.

(** sum_size, log_del_multiple (src/ydb_write.cc:371-399), in 32 bits. *)
Definition sum_size (l : list (nat * list bytes)) : N :=
  fold_left (fun n p => fold_left (fun n k => (n + len k + e_ov_any e) mod 2 ^ 32)%N (snd p) n) l 0%N.
Definition log_del s (src : option nat) k v (l : list (nat * list bytes)) : mst :=
  match l with
  | [] => s
  | _ =>
    let multi := ((len k + len v + N.of_nat (length l) * 4 + e_ov_multi e) mod 2 ^ 32)%N in
    if (sum_size l <? multi)%N then
      fold_left (fun s p => fold_left (fun s k => log_rec s (LDel (fst p) k)) (snd p) s) l s
    else log_rec s (LDelMulti src (map fst l) k v)
  end.
(** log_put_multiple (src/ydb_write.cc:589-597). *)
Definition log_put s (src : option nat) k v (ds : list nat) : mst :=
  match ds with [] => s | _ => log_rec s (LPutMulti src ds k v) end.

(** ** put_multiple *)

(** The first loop of env_put_multiple_internal (src/ydb_write.cc:699-741). *)
Fixpoint put_checks s d fl (kvs : list (bytes * bytes)) : out :=
  match kvs with
  | [] => (s, None)
  | (k, v) :: kvs =>
    if size_ok k v then
      match f_rest fl with
      | FNoOverwriteNoError => (s, Some EInval)
      | _ => thn (point_lock s d fl k) (fun s => put_checks s d fl kvs)
      end
    else (s, Some EInval)
  end.
Fixpoint put_prepare s (src : option nat) k v (dbs : list (nat * flags)) (acc : list (nat * list (bytes * bytes) * rest))
  : out * list (nat * list (bytes * bytes) * rest) :=
  match dbs with
  | [] => ((s, None), acc)
  | (d, fl) :: dbs =>
    match (if same_src src d then Some [(k, v)] else e_put e d src k v) with
    | None => ((s, Some EGen), acc)
    | Some kvs =>
      match put_checks s d fl kvs with
      | (s, None) => put_prepare s src k v dbs (acc ++ [(d, kvs, f_rest fl)])
      | r => (r, acc)
      end
    end
  end.
(** src/ydb_write.cc:652-773: the rows are put, then the record is logged. *)
Definition put_multiple s (src : option nat) k v (dbs : list (nat * flags)) : out :=
  match dbs with
  | [] => (s, Some EInval)
  | _ =>
    match put_prepare s src k v dbs [] with
    | ((s, None), l) => thn (do_put s l) (fun s => (log_put s src k v (map fst dbs), None))
    | (r, _) => r
    end
  end.

(** ** del_multiple *)

(** The first loop of env_del_multiple (src/ydb_write.cc:524-560). *)
Fixpoint del_checks s d fl (ks : list bytes) : out :=
  match ks with
  | [] => (s, None)
  | k :: ks =>
    thn (match f_rest fl with FDeleteAny => point_lock s d fl k | _ => getf_set s d fl k end) (fun s => del_checks s d fl ks)
  end.
Fixpoint del_prepare s (src : option nat) k v (dbs : list (nat * flags)) (acc : list (nat * list bytes)) : out * list (nat * list bytes) :=
  match dbs with
  | [] => ((s, None), acc)
  | (d, fl) :: dbs =>
    match (if same_src src d then Some [k] else e_del e d src k v) with
    | None => ((s, Some EGen), acc)
    | Some ks =>
      match f_rest fl with
      | FNone | FDeleteAny =>
        match del_checks s d fl ks with
        | (s, None) => del_prepare s src k v dbs (acc ++ [(d, ks)])
        | r => (r, acc)
        end
      | _ => ((s, Some EInval), acc)
      end
    end
  end.
(** src/ydb_write.cc:483-587. *)
Definition del_multiple s (src : option nat) k v (dbs : list (nat * flags)) : out :=
  match del_prepare s src k v dbs [] with
  | ((s, None), l) => (do_del (log_del s src k v l) l, None)
  | (r, _) => r
  end.

(** ** update_multiple *)

(** swap_dbts (src/ydb_write.cc:775-780) on two places of an array; [None]: outside. *)
Definition set_nth {A} (i : nat) (x : A) (l : list A) : list A := firstn i l ++ x :: skipn (S i) l.
Definition swap {A} (i j : nat) (l : list A) : option (list A) :=
  match nth_error l i, nth_error l j with
  | Some x, Some y => Some (set_nth j x (set_nth i y l))
  | _, _ => None
  end.
Definition swap_if {A} (i j : nat) (l : list A) : option (list A) := if i =? j then Some l else swap i j l.

(** The variables of the loop over the keys of one dictionary
    (src/ydb_write.cc:870-881). *)
Record uvar := mkU {
  u_old : list bytes; u_nk : list bytes; u_nv : list bytes;
  u_io : nat; u_in : nat; u_iou : nat; u_inu : nat;
  u_skip : nat; u_del : nat; u_put : nat
}.

(** One turn (src/ydb_write.cc:882-1003). *)
Definition uturn s d fl (u : uvar) : mst * (err + uvar) :=
  let ko := nth_error (u_old u) (u_io u) in
  let kn := nth_error (u_nk u) (u_in u) in
  let vn := nth_error (u_nv u) (u_in u) in
  let cmp := if u_in u =? length (u_nk u) then Some Lt
             else if u_io u =? length (u_old u) then Some Gt
             else match ko, kn with Some a, Some b => Some (e_cmp e d a b) | _, _ => None end in
  let put s (kn vn : bytes) (locked both : bool) : mst * (err + uvar) :=
    if size_ok kn vn then
      match (if locked then (s, None) else point_lock s d fl kn) with
      | (s, Some x) => (s, inl x)
      | (s, None) =>
        match swap_if (u_inu u) (u_in u) (u_nk u), swap_if (u_inu u) (u_in u) (u_nv u) with
        | Some nk, Some nv =>
          (s, inr (mkU (u_old u) nk nv (if both then S (u_io u) else u_io u) (S (u_in u)) (u_iou u) (S (u_inu u)) (u_skip u) (u_del u) (S (u_put u))))
        | _, _ => (s, inl EBug)
        end
      end
    else (s, inl EInval) in
  match cmp with
  | Some Gt =>
    match kn, vn with
    | Some kn, Some vn =>
      match check_overwrite s d fl kn with
      | (s, Some x) => (s, inl x)
      | (s, None) =>
        match f_rest fl with
        | FNoOverwriteNoError => (s, inl EInval)
        | f => put s kn vn (match f with FNoOverwrite => true | _ => false end) false
        end
      end
    | _, _ => (s, inl EBug)
    end
  | Some Lt =>
    match ko with
    | Some ko =>
      match point_lock s d fl ko with
      | (s, Some x) => (s, inl x)
      | (s, None) =>
        match swap_if (u_iou u) (u_io u) (u_old u) with
        | Some old => (s, inr (mkU old (u_nk u) (u_nv u) (S (u_io u)) (u_in u) (S (u_iou u)) (u_inu u) (u_skip u) (S (u_del u)) (u_put u)))
        | None => (s, inl EBug)
        end
      end
    | None => (s, inl EBug)
    end
  | Some Eq =>
    match ko, kn, vn with
    | Some ko, Some kn, Some vn =>
      if (0 <? len vn)%N || negb (same_bytes ko kn) then put s kn vn false true
      else (s, inr (mkU (u_old u) (u_nk u) (u_nv u) (S (u_io u)) (S (u_in u)) (u_iou u) (u_inu u) (S (u_skip u)) (u_del u) (u_put u)))
    | _, _, _ => (s, inl EBug)
    end
  | None => (s, inl EBug)
  end.
(** The loop; it ends because every turn looks at one more key. *)
Fixpoint uloop (n : nat) s d fl (u : uvar) : mst * (err + uvar) :=
  if (u_io u <? length (u_old u)) || (u_in u <? length (u_nk u)) then
    match n with
    | O => (s, inl EBug)
    | S n => match uturn s d fl u with (s, inr u) => uloop n s d fl u | r => r end
    end
  else (s, inr u).

(** What is left to do for one dictionary (src/ydb_write.cc:1004-1024). *)
Definition uleft d (u : uvar) : list (nat * list bytes) * list (nat * list (bytes * bytes) * rest) :=
  (if 0 <? u_del u then [(d, firstn (u_iou u) (u_old u))] else [],
   if (0 <? u_put u) || ((0 <? u_del u) && (0 <? u_skip u))
   then [(d, combine (firstn (u_inu u) (u_nk u)) (firstn (u_inu u) (u_nv u)), FNone)] else []).

Fixpoint upd_prepare s (src : option nat) ok ov nk nv (dbs : list (nat * flags)) (dels : list (nat * list bytes)) (puts : list (nat * list (bytes * bytes) * rest))
  : out * (list (nat * list bytes) * list (nat * list (bytes * bytes) * rest)) :=
  match dbs with
  | [] => ((s, None), (dels, puts))
  | (d, fl) :: dbs =>
    match (if same_src src d then Some [ok] else option_map (map fst) (e_put e d src ok ov)),
          (if same_src src d then Some [(nk, nv)] else e_put e d src nk nv) with
    | Some old, Some new =>
      match uloop (length old + length new) s d fl (mkU old (map fst new) (map snd new) 0 0 0 0 0 0 0) with
      | (s, inr u) => let '(a, b) := uleft d u in upd_prepare s src ok ov nk nv dbs (dels ++ a) (puts ++ b)
      | (s, inl x) => ((s, Some x), (dels, puts))
      end
    | _, _ => ((s, Some EGen), (dels, puts))
    end
  end.
(** env_update_multiple (src/ydb_write.cc:784-1068): the deletes, then the puts, each
    logged first.  [nkeys], [nvals]: the sizes of the caller's arrays. *)
Definition update_multiple s (src : option nat) ok ov nk nv (dbs : list (nat * flags)) (nkeys nvals : nat) : out :=
  if (nkeys <? length dbs + length dbs) || (nvals <? length dbs) then (s, Some ENoMem)
  else
    match upd_prepare s src ok ov nk nv dbs [] [] with
    | ((s, None), (dels, puts)) =>
      let s := match dels with [] => s | _ => do_del (log_del s src ok ov dels) dels end in
      match puts with [] => (s, None) | _ => do_put (log_put s src nk nv (map (fun p => fst (fst p)) puts)) puts end
    | (r, _) => r
    end.

(** ** Recovery *)

(** toku_recover_enq_insert_multiple, toku_recover_enq_delete_multiple,
    toku_recover_enq_delete_any (ft/logger/recover.cc:843-985): all files are open,
    none has been checkpointed since.  [None]: an assertion fails. *)
Fixpoint replay_puts s (src : option nat) k v (dbs : list nat) : option mst :=
  match dbs with
  | [] => Some s
  | d :: dbs =>
    do kvs <- if same_src src d then Some [(k, v)] else e_put e d src k v;
    replay_puts (fold_left (fun s kv => put_row s d (fst kv) (snd kv)) kvs s) src k v dbs
  end.
Fixpoint replay_dels s (src : option nat) k v (dbs : list nat) : option mst :=
  match dbs with
  | [] => Some s
  | d :: dbs =>
    do ks <- if same_src src d then Some [k] else e_del e d src k v;
    replay_dels (fold_left (fun s k => del_row s d k) ks s) src k v dbs
  end.
Definition replay1 s (r : lrec) : option mst :=
  match r with
  | LPutMulti src dbs k v => replay_puts s src k v dbs
  | LDelMulti src dbs k v => replay_dels s src k v dbs
  | LDel d k => Some (del_row s d k)
  end.
Fixpoint replay s (l : list lrec) : option mst :=
  match l with [] => Some s | r :: l => do t <- replay1 s r; replay t l end.
End Mul.
