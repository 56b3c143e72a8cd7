(** What nested transactions with snapshots mean for one row, as a function of
    what the users did.  Nothing here knows about leaf entries or messages. *)
From Verif Require Import Base MvccModel.
Open Scope N_scope.

(** [sp_val]: the committed value.  [sp_levels r]: for root transaction [r] and its
    open children, innermost first, what each level has written to the row:
    [None] nothing, [Some None] deleted, [Some (Some v)] stored [v].
    [sp_frozen s]: the committed value when snapshot [s] was taken. *)
Record rspec := mkSpec {
  sp_val : option val;
  sp_levels : txnid -> list (option (option val));
  sp_frozen : txnid -> option val
}.

Definition spec_init : rspec := mkSpec None (fun _ => []) (fun _ => None).

Definition upd {A} (f : txnid -> A) (x : txnid) (a : A) : txnid -> A :=
  fun y => if y =? x then a else f y.

(** The innermost write. *)
Fixpoint own (ls : list (option (option val))) : option (option val) :=
  match ls with [] => None | Some w :: _ => Some w | None :: ls' => own ls' end.

(** What a transaction with these levels sees, over the value [base]. *)
Definition sees (ls : list (option (option val))) (base : option val) : option val :=
  match own ls with Some w => w | None => base end.

(** The level's new write. *)
Definition wval (w : wkind) (cur : option val) : option (option val) :=
  match w with
  | WPut v => Some (Some v)
  | WPutNew v => match cur with Some _ => None | None => Some (Some v) end
  | WDel => Some None
  | WUpd f => f cur
  end.

Definition set_top (w : option (option val)) (ls : list (option (option val))) :=
  match w, ls with
  | Some x, _ :: ls' => Some x :: ls'
  | _, _ => ls
  end.

Definition spec_step (s : rspec) (e : revent) : rspec :=
  match e with
  | VBegin r => mkSpec (sp_val s) (upd (sp_levels s) r [None]) (sp_frozen s)
  | VChild r => mkSpec (sp_val s) (upd (sp_levels s) r (None :: sp_levels s r)) (sp_frozen s)
  | VWrite r w =>
      let ls := sp_levels s r in
      mkSpec (sp_val s) (upd (sp_levels s) r (set_top (wval w (sees ls (sp_val s))) ls)) (sp_frozen s)
  | VChildCommit r =>
      mkSpec (sp_val s)
        (upd (sp_levels s) r
           (match sp_levels s r with c :: p :: ls => match c with Some _ => c :: ls | None => p :: ls end
                                | ls => ls end))
        (sp_frozen s)
  | VChildAbort r => mkSpec (sp_val s) (upd (sp_levels s) r (tl (sp_levels s r))) (sp_frozen s)
  | VCommit r => mkSpec (sees (sp_levels s r) (sp_val s)) (upd (sp_levels s) r []) (sp_frozen s)
  | VAbort r => mkSpec (sp_val s) (upd (sp_levels s) r []) (sp_frozen s)
  | VSnap n => mkSpec (sp_val s) (sp_levels s) (upd (sp_frozen s) n (sp_val s))
  end.

(** The trace is newest first. *)
Fixpoint spec_of (tr : list revent) : rspec :=
  match tr with [] => spec_init | e :: tr' => spec_step (spec_of tr') e end.
