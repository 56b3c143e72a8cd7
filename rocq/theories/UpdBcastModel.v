(** DB->update_broadcast: the user's update function on every row.

    Source: ft/node.cc:1624-1683 (FT_UPDATE_BROADCAST_ALL in toku_ft_bn_apply_msg),
    1292-1374 do_update, 1257-1285 setval_fun. *)
From Verif Require Import Base UleModel MvccModel.
Open Scope N_scope.

(** One row.  The loop visits the stored leaf entries, whatever their latest version
    is.  A row that is not stored is not visited. *)
Definition bcast_row (f : option val -> option (option val)) (xs : xids) (old : option ule) (gi : gc_info)
  : option (option ule) :=
  match old with
  | None => Some None
  | Some _ => row_apply (mkRmsg (KUpd f) xs) old gi
  end.

(** All rows of a leaf. *)
Fixpoint bcast (f : option val -> option (option val)) (xs : xids) (rows : list (option ule)) (gi : gc_info)
  : option (list (option ule)) :=
  match rows with
  | [] => Some []
  | r :: rows' => do r' <- bcast_row f xs r gi; do l <- bcast f xs rows' gi; Some (r' :: l)
  end.
