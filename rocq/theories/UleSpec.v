(** Well-formed leaf entries: what a stored row always looks like. *)
From Verif Require Import Base Bytes UleModel.
Open Scope N_scope.

(** A stored value is shorter than 2^31 bytes. *)
Definition xr_ok (r : xr) : Prop :=
  match r with XIns v => len v < 2 ^ 31 | _ => True end.

Definition uxr_ok (r : uxr) : Prop := ux_xid r < 2 ^ 64 /\ xr_ok (ux_xr r).

Record ule_wf (u : ule) : Prop := {
  (* committed records are inserts or deletes *)
  wf_c : Forall (fun r => uxr_ok r /\ ux_xr r <> XPlace) (cx u);
  wf_p : Forall uxr_ok (px u);
  (* the oldest committed record belongs to no transaction *)
  wf_bottom : exists l c, cx u = l ++ [mkUxr TXNID_NONE c];
  (* the innermost provisional record is an insert or a delete *)
  wf_inner : ux_xr (last (px u) (mkUxr 0 XDel)) <> XPlace;
  wf_np : (length (px u) < MAX_TRANSACTION_RECORDS)%nat
}.
