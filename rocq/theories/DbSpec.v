(** What nested transactions with snapshots mean for a whole dictionary, as a
    function of what the users did.  Nothing here knows about leaf entries,
    messages, nodes or collection. *)
From Verif Require Import Base Bytes KOrd MvccModel MvccSpec DbModel.
Open Scope nat_scope.

(** What one level of a transaction has written: for every key nothing, a delete
    or a value. *)
Definition writes : Type := bytes -> option (option val).

(** [ds_val]: the committed dictionary.  [ds_levels r]: the writes of root
    transaction [r] and its open children, innermost first.  [ds_frozen s]: the
    committed dictionary when snapshot [s] was taken. *)
Record dspec := mkDspec {
  ds_val : bytes -> option val;
  ds_levels : txnid -> list writes;
  ds_frozen : txnid -> bytes -> option val
}.

Definition dspec_init : dspec := mkDspec (fun _ => None) (fun _ => []) (fun _ _ => None).

(** What a transaction with these levels sees at [k], over the dictionary [base]:
    its innermost write, if there is one. *)
Fixpoint dsees (ls : list writes) (base : bytes -> option val) (k : bytes) : option val :=
  match ls with
  | [] => base k
  | l :: ls => match l k with Some w => w | None => dsees ls base k end
  end.

Section Spec.
Context (c : bytes -> bytes -> comparison).

Definition dspec_step (s : dspec) (e : devent) : dspec :=
  let lv r ls := mkDspec (ds_val s) (upd (ds_levels s) r ls) (ds_frozen s) in
  match e with
  | DvBegin r => lv r [fun _ => None]
  | DvChild r => lv r ((fun _ => None) :: ds_levels s r)
  | DvWrite r k w =>
      match ds_levels s r, wval w (dsees (ds_levels s r) (ds_val s) k) with
      | l :: ls, Some x => lv r ((fun k' => if keqb c k' k then Some x else l k') :: ls)
      | _, _ => s
      end
  | DvChildCommit r =>
      match ds_levels s r with
      | a :: p :: ls => lv r ((fun k => match a k with Some w => Some w | None => p k end) :: ls)
      | _ => s
      end
  | DvChildAbort r => lv r (tl (ds_levels s r))
  | DvCommit r => mkDspec (dsees (ds_levels s r) (ds_val s)) (upd (ds_levels s) r []) (ds_frozen s)
  | DvAbort r => lv r []
  | DvSnap n => mkDspec (ds_val s) (ds_levels s) (upd (ds_frozen s) n (ds_val s))
  end.

(** The trace is newest first. *)
Fixpoint dspec_of (tr : list devent) : dspec :=
  match tr with [] => dspec_init | e :: tr => dspec_step (dspec_of tr) e end.

(** ** One key of it *)

(** The events that concern key [k]. *)
Definition pev (k : bytes) (e : devent) : list revent :=
  match e with
  | DvBegin r => [VBegin r]
  | DvChild r => [VChild r]
  | DvWrite r k' w => if keqb c k k' then [VWrite r w] else []
  | DvChildCommit r => [VChildCommit r]
  | DvChildAbort r => [VChildAbort r]
  | DvCommit r => [VCommit r]
  | DvAbort r => [VAbort r]
  | DvSnap s => [VSnap s]
  end.
Definition ptrace (k : bytes) (tr : list devent) : list revent := flat_map (pev k) tr.
End Spec.
