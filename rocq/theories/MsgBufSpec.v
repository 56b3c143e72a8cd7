(** What a child's message buffer is, independently of its layout: the messages in the order
    in which they arrived, each with the flag that says whether it is still fresh (has not been
    applied to any basement node). *)
From Verif Require Import Base Bytes XidsModel MsgBufModel KOrd.
Open Scope N_scope.

Definition entry : Type := msg * bool.

(** A message for one key, as opposed to a broadcast message. *)
Definition once (m : msg) : bool := match applies_once (m_type m) with Some true => true | _ => false end.

(** Key bounds: the lower one excluded, the upper one included. *)
Definition within (cmp : bytes -> bytes -> comparison) (lbe ubi : option bytes) (k : bytes) : bool :=
  match lbe with None => true | Some l => kltb cmp l k end &&
  match ubi with None => true | Some u => kleb cmp k u end.

(** Applying what is between the bounds to a basement node: the messages for keys between
    the bounds, and all broadcast messages, are not fresh any more. *)
Definition spec_apply (cmp : bytes -> bytes -> comparison) (lbe ubi : option bytes) (es : list entry) : list entry :=
  map (fun e => (fst e, snd e && (once (fst e) && negb (within cmp lbe ubi (m_key (fst e)))))) es.

(** Before one another in (key, msn) order. *)
Definition before (cmp : bytes -> bytes -> comparison) (a b : msg) : Prop :=
  klt cmp (m_key a) (m_key b) \/ keq cmp (m_key a) (m_key b) /\ m_msn a < m_msn b.

(** A message that can be put into a buffer: a type that exists, a 64 bit msn, the ids of a
    transaction, lengths that fit in 32 bits. *)
Definition msg_ok (m : msg) : Prop :=
  m_type m < 256 /\ applies_once (m_type m) <> None /\ m_msn m < 2 ^ 64 /\
  (N.of_nat (length (x_ids (m_xids m))) = x_num (m_xids m) /\ x_num (m_xids m) <= 253 /\
   Forall (fun i => i < 2 ^ 64) (x_ids (m_xids m))) /\
  len (m_key m) < 2 ^ 32 /\ len (m_val m) < 2 ^ 32.
