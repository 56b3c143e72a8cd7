(** The logical row count of a dictionary (what DB->get_key_range and
    DB->stat64 report as the number of rows).

    Source: ft/ft-ops.cc:2268, 2444, 2519, 2629 (the count changes when a message is
    sent), ft/node.cc:1149-1231 toku_ft_bn_apply_msg_once and ft/ule.cc:484-577 (it
    is corrected when the message is applied to the leaf entry), ft/ft.cc:904-921.

    Simplification: the counter is an unbounded integer; the special value
    (uint64_t)-1, which ft.cc:914-919 steps over, is not modelled.  A message is
    counted when it is sent and corrected when it is applied; here both happen in
    one step. *)
From Verif Require Import Base UleModel MvccModel.
Open Scope N_scope.

(** The change made by the sender: +1 for an insert (ft-ops.cc:2268, 2444) and for an
    update (2519), -1 for a delete (2629). *)
Definition sent (k : kind) : Z :=
  match k with
  | KIns _ | KInsNo _ | KUpd _ => 1
  | KDel => -1
  | KAbort | KCommit | KOpt => 0
  end%Z.

(** [row_apply] with the correction that toku_ft_bn_apply_msg_once adds to
    logical_rows_delta (node.cc:1184-1219); none when the message is not applied to
    the row. *)
Definition row_apply_count (m : rmsg) (old : option ule) (gi : gc_info)
  : option (option ule * Z) :=
  let go t := le_apply_msg (mkUmsg t (rm_xids m)) old gi in
  match rm_kind m with
  | KIns v => go (FT_INSERT v)
  | KInsNo v => go (FT_INSERT_NO_OVERWRITE v)
  | KDel => if is_some old then go FT_DELETE_ANY else Some (None, 0%Z)
  | KAbort => if is_some old then go FT_ABORT_ANY else Some (None, 0%Z)
  | KCommit => if is_some old then go FT_COMMIT_ANY else Some (None, 0%Z)
  | KOpt => match old with
            | None => Some (None, 0%Z)
            | Some u => if is_clean u then Some (old, 0%Z) else go FT_OPTIMIZE
            end
  | KUpd f =>
      do v <- latest_val old;
      match f v with
      | None => Some (old, 0%Z)
      | Some (Some w) => go (FT_INSERT w)
      | Some None => go FT_DELETE_ANY
      end
  end.

(** A dictionary: its rows (row number for key) and its counter. *)
Record dict := mkDict { d_rows : list (option ule); d_count : Z }.

Definition set_row (i : nat) (o : option ule) (l : list (option ule)) : list (option ule) :=
  firstn i l ++ o :: skipn (S i) l.

(** Send a message for row [i] and apply it; or collect the garbage of row [i]
    (ft/node.cc:1044-1103 ft_basement_node_gc_once, which does not touch the count). *)
Inductive dop := DMsg (i : nat) (m : rmsg) (gi : gc_info) | DGc (i : nat) (gi : gc_info).

Definition dstep (d : dict) (o : dop) : option dict :=
  match o with
  | DMsg i m gi =>
      do r <- nth_error (d_rows d) i;
      do (r', c) <- row_apply_count m r gi;
      Some (mkDict (set_row i r' (d_rows d)) (d_count d + sent (rm_kind m) + c)%Z)
  | DGc i gi =>
      do r <- nth_error (d_rows d) i;
      match r with
      | None => None
      | Some u => do r' <- le_garbage_collect u gi;
                  Some (mkDict (set_row i r' (d_rows d)) (d_count d))
      end
  end.

(** A new dictionary with room for [n] keys. *)
Definition dict_new (n : nat) : dict := mkDict (repeat None n) 0%Z.

Fixpoint drun (d : dict) (ops : list dop) : option dict :=
  match ops with
  | [] => Some d
  | o :: ops' => do d' <- dstep d o; drun d' ops'
  end.
