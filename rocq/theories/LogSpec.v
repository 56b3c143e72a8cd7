(** The log format, stated independently of the reader and of the writer's buffers. *)
From Verif Require Import Base Bytes X1764Spec LogModel.
Open Scope N_scope.

(** 64-bit numbers are stored as two little-endian words, high word first. *)
Definition b8 (n : N) : bytes := le_enc 4 (n / 2 ^ 32) ++ le_enc 4 (n mod 2 ^ 32).

(** The bytes of a field. *)
Definition field_bytes (t : ftype) (v : fval) : bytes :=
  match t, v with
  | T_uint8, V_num n => [n]
  | T_bool, V_bool b => [if b then 1 else 0]
  | T_uint32, V_num n | T_FILENUM, V_num n => le_enc 4 n
  | T_uint64, V_num n | T_BLOCKNUM, V_num n | T_LSN, V_num n | T_TXNID, V_num n => b8 n
  | T_TXNID_PAIR, V_pair p q => b8 p ++ b8 q
  | T_XIDP, V_xid f g b => le_enc 4 (Z.to_N f) ++ [len g; len b] ++ g ++ b
  | T_FILENUMS, V_nums l => le_enc 4 (N.of_nat (length l)) ++ concat (map (le_enc 4) l)
  | T_BYTESTRING, V_bytes bs => le_enc 4 (len bs) ++ bs
  | _, _ => []
  end.

(** A value that the field's C type can hold, and an XA identifier within the standard's
    limits whose format id fits in 32 bits. *)
Definition field_ok (t : ftype) (v : fval) : Prop :=
  match t, v with
  | T_uint8, V_num n => n < 2 ^ 8
  | T_bool, V_bool _ => True
  | T_uint32, V_num n | T_FILENUM, V_num n => n < 2 ^ 32
  | T_uint64, V_num n | T_BLOCKNUM, V_num n | T_LSN, V_num n | T_TXNID, V_num n => n < 2 ^ 64
  | T_TXNID_PAIR, V_pair p q => p < 2 ^ 64 /\ q < 2 ^ 64
  | T_XIDP, V_xid f g b =>
      (0 <= f < 2 ^ 32)%Z /\ len g <= 64 /\ len b <= 64 /\ bytes_ok g /\ bytes_ok b
  | T_FILENUMS, V_nums l => Forall (fun n => n < 2 ^ 32) l
  | T_BYTESTRING, V_bytes bs => bytes_ok bs
  | _, _ => False
  end.

Definition fields_bytes (ts : list ftype) (vs : list fval) : bytes :=
  concat (map (fun p => field_bytes (fst p) (snd p)) (combine ts vs)).

(** The bytes of a record: length, command, LSN, fields, checksum of all that, length. *)
Definition rec_len (ts : list ftype) (e : lentry) : N := 21 + len (fields_bytes ts (e_vals e)).
Definition rec_head (ts : list ftype) (e : lentry) : bytes :=
  le_enc 4 (rec_len ts e) ++ [e_cmd e] ++ b8 (e_lsn e) ++ fields_bytes ts (e_vals e).
Definition rec_bytes (e : lentry) : bytes :=
  match fields_of (e_cmd e) with
  | Some ts =>
      rec_head ts e ++ le_enc 4 (checksum_spec (rec_head ts e)) ++ le_enc 4 (rec_len ts e)
  | None => []
  end.

(** A record the logger can be asked to write: a known command with one value per field of
    the right type, and less than 2 GiB in all. *)
Definition entry_ok (e : lentry) : Prop :=
  exists ts, fields_of (e_cmd e) = Some ts /\ Forall2 field_ok ts (e_vals e) /\
             e_lsn e < 2 ^ 64 /\ rec_len ts e < 2 ^ 31.

(** A log file: the header followed by its records. *)
Definition file_of (es : list lentry) : bytes := log_header ++ concat (map rec_bytes es).

(** LSNs of a log increase by one from record to record. *)
Fixpoint lsns_from (n : N) (es : list lentry) : Prop :=
  match es with
  | [] => True
  | e :: es' => e_lsn e = n /\ lsns_from (n + 1) es'
  end.

(** * Walking the log: what a log cursor should do *)
Inductive cop := C_first | C_next | C_prev | C_last.
(** Nowhere, or on record number [k], reached in direction [d]. *)
Inductive cst := Idle | On (k : nat) (d : lcdir).
Inductive cout := O_rec (e : lentry) | O_end.

Definition walk_to (l : list lentry) (k : nat) (d : lcdir) : cout * cst :=
  match nth_error l k with Some e => (O_rec e, On k d) | None => (O_end, Idle) end.

(** [first] and [last] (or a first [next], [prev]) position an idle cursor; then [next] and
    [prev] move by one record, and past either end the cursor is idle again.  Not covered:
    [first] and [last] on a cursor that stands on a record, [next] directly after [last],
    [prev] directly after [first]. *)
Definition walk_first (l : list lentry) : cout * cst := walk_to l 0 D_FIRST.
Definition walk_last (l : list lentry) : cout * cst :=
  match l with [] => (O_end, Idle) | _ => walk_to l (length l - 1) D_LAST end.
Definition walk (l : list lentry) (st : cst) (op : cop) : option (cout * cst) :=
  match op with
  | C_first => match st with Idle => Some (walk_first l) | On _ _ => None end
  | C_last => match st with Idle => Some (walk_last l) | On _ _ => None end
  | C_next =>
      match st with
      | Idle => Some (walk_first l)
      | On k d => match d with D_LAST => None | _ => Some (walk_to l (S k) D_FORWARD) end
      end
  | C_prev =>
      match st with
      | Idle => Some (walk_last l)
      | On k d =>
          match d with
          | D_FIRST => None
          | _ => match k with
                 | O => Some (O_end, Idle)
                 | S k' => Some (walk_to l k' D_BACKWARD)
                 end
          end
      end
  end.
Fixpoint walks (l : list lentry) (st : cst) (ops : list cop) : option (list cout) :=
  match ops with
  | [] => Some []
  | op :: ops' =>
      do (o, st') <- walk l st op; do os <- walks l st' ops'; Some (o :: os)
  end.

(** The cursor of the code run on the same calls. *)
Definition lc_op (lc : lcur) (op : cop) : option (lres * lcur) :=
  match op with
  | C_first => lc_first lc | C_next => lc_next lc | C_prev => lc_prev lc | C_last => lc_last lc
  end.
Definition out_of (r : lres) : option cout :=
  match r with L_ok e => Some (O_rec e) | L_notfound => Some O_end | _ => None end.
Fixpoint lc_ops (lc : lcur) (ops : list cop) : option (list cout) :=
  match ops with
  | [] => Some []
  | op :: ops' =>
      do (r, lc') <- lc_op lc op;
      do o <- out_of r;
      do os <- lc_ops lc' ops'; Some (o :: os)
  end.
