(** Model of the recovery log's record codec and of the log cursor:
    ft/logger/logformat.cc (the generator of log_code.cc: record layouts, writer,
    forward and backward reader), ft/logger/log-internal.h (field sizes),
    ft/logger/logger.cc (field readers), ft/logger/logcursor.cc.

    Simplifications: a log file is the byte string that stat and read see; open, stat and
    memory allocation succeed (the readers allocate lengths they have not yet checked);
    freeing record resources has no effect. *)
From Coq Require Import String Ascii.
From Verif Require Import Base Bytes X1764Model WbufModel TransCodecModel.
Open Scope N_scope.

(** * Fields *)

(** The field types used in log records (logformat.cc:132-277). *)
Inductive ftype :=
| T_uint8 | T_uint32 | T_uint64 | T_bool
| T_FILENUM | T_BLOCKNUM | T_LSN | T_TXNID | T_TXNID_PAIR
| T_XIDP | T_FILENUMS | T_BYTESTRING.

(** Field values.  An XA identifier (buildheader/make_tdb.cc:624-629) has a [long] format
    id, two [long] lengths and a 128-byte data array of which the first gtrid+bqual bytes
    are meaningful. *)
Inductive fval :=
| V_num (n : N)                 (* uint8_t, uint32_t, uint64_t, FILENUM, BLOCKNUM, LSN, TXNID *)
| V_bool (b : bool)
| V_pair (parent child : N)     (* TXNID_PAIR *)
| V_xid (fmt : Z) (gtrid bqual : bytes)
| V_nums (l : list N)           (* FILENUMS *)
| V_bytes (bs : bytes).         (* BYTESTRING *)

(** toku_logsizeof_* (log-internal.h:160-216); None: a failed assert, or a value that is
    not of the field's type (cannot happen in C). *)
Definition logsizeof (t : ftype) (v : fval) : option N :=
  match t, v with
  | T_uint8, V_num _ => Some 1
  | T_bool, V_bool _ => Some 1
  | T_uint32, V_num _ | T_FILENUM, V_num _ => Some 4
  | T_uint64, V_num _ | T_BLOCKNUM, V_num _ | T_LSN, V_num _ | T_TXNID, V_num _ => Some 8
  | T_TXNID_PAIR, V_pair _ _ => Some 16
  | T_XIDP, V_xid _ g b =>
      guard len g <=? 64; guard len b <=? 64;
      Some (len g + len b + 4 + 1 + 1)
  | T_FILENUMS, V_nums l => Some (4 + 4 * N.of_nat (length l))
  | T_BYTESTRING, V_bytes bs => Some (4 + len bs)
  | _, _ => None
  end.

Fixpoint logsizes (ts : list ftype) (vs : list fval) : option N :=
  match ts, vs with
  | [], [] => Some 0
  | t :: ts', v :: vs' =>
      do a <- logsizeof t v; do b <- logsizes ts' vs'; Some (a + b)
  | _, _ => None
  end.

Fixpoint put_nums (w : wbuf) (l : list N) : option wbuf :=
  match l with
  | [] => Some w
  | n :: l' => do w1 <- wbuf_nocrc_uint w n; put_nums w1 l'
  end.

(** wbuf_nocrc_* (wbuf.h:185-215, logger.h:221-248, txn.h:323-334, block_table.h:317-319). *)
Definition put_field (w : wbuf) (t : ftype) (v : fval) : option wbuf :=
  match t, v with
  | T_uint8, V_num n => wbuf_nocrc_char w (n mod 256)
  | T_bool, V_bool b => wbuf_nocrc_char w (if b then 1 else 0)
  | T_uint32, V_num n | T_FILENUM, V_num n => wbuf_nocrc_uint w n
  | T_uint64, V_num n | T_BLOCKNUM, V_num n | T_LSN, V_num n | T_TXNID, V_num n =>
      wbuf_nocrc_ull w n
  | T_TXNID_PAIR, V_pair p c => do w1 <- wbuf_nocrc_ull w p; wbuf_nocrc_ull w1 c
  | T_XIDP, V_xid f g b =>
      do w1 <- wbuf_nocrc_uint w (Z.to_N (f mod 2 ^ 32));
      do w2 <- wbuf_nocrc_char w1 (len g mod 256);
      do w3 <- wbuf_nocrc_char w2 (len b mod 256);
      wbuf_nocrc_literal w3 (g ++ b)
  | T_FILENUMS, V_nums l =>
      do w1 <- wbuf_nocrc_uint w (N.of_nat (length l)); put_nums w1 l
  | T_BYTESTRING, V_bytes bs => wbuf_nocrc_bytes w bs
  | _, _ => None
  end.

Fixpoint put_fields (w : wbuf) (ts : list ftype) (vs : list fval) : option wbuf :=
  match ts, vs with
  | [], [] => Some w
  | t :: ts', v :: vs' => do w1 <- put_field w t v; put_fields w1 ts' vs'
  | _, _ => None
  end.

(** * Record types: logtypes[] (logformat.cc:132-278) *)
Definition c (s : string) : N :=
  match s with String a _ => N_of_ascii a | EmptyString => 0 end.

Definition logtypes : list (N * list ftype) :=
  [ (c "x", [T_uint64; T_TXNID]);                                        (* begin_checkpoint *)
    (c "X", [T_LSN; T_uint64; T_uint32; T_uint32]);                      (* end_checkpoint *)
    (c "f", [T_FILENUM; T_uint32; T_BYTESTRING; T_uint8]);               (* fassociate *)
    (c "s", [T_TXNID_PAIR; T_TXNID_PAIR; T_uint64; T_FILENUMS; T_uint8; T_uint64; T_uint64;
             T_BLOCKNUM; T_BLOCKNUM; T_BLOCKNUM]);                       (* xstillopen *)
    (c "p", [T_TXNID_PAIR; T_XIDP; T_uint64; T_FILENUMS; T_uint8; T_uint64; T_uint64;
             T_BLOCKNUM; T_BLOCKNUM; T_BLOCKNUM]);                       (* xstillopenprepared *)
    (c "b", [T_TXNID_PAIR; T_TXNID_PAIR]);                               (* xbegin *)
    (c "C", [T_TXNID_PAIR]);                                             (* xcommit *)
    (c "P", [T_TXNID_PAIR; T_XIDP]);                                     (* xprepare *)
    (c "q", [T_TXNID_PAIR]);                                             (* xabort *)
    (c "F", [T_TXNID_PAIR; T_FILENUM; T_BYTESTRING; T_uint32; T_uint32; T_uint32; T_uint32;
             T_uint32]);                                                 (* fcreate *)
    (c "O", [T_BYTESTRING; T_FILENUM; T_uint32]);                        (* fopen *)
    (c "e", [T_BYTESTRING; T_FILENUM]);                                  (* fclose *)
    (c "U", [T_TXNID_PAIR; T_FILENUM]);                                  (* fdelete *)
    (c "n", [T_TXNID_PAIR; T_BYTESTRING; T_FILENUM; T_BYTESTRING]);      (* frename *)
    (c "I", [T_FILENUM; T_TXNID_PAIR; T_BYTESTRING; T_BYTESTRING]);      (* enq_insert *)
    (c "i", [T_FILENUM; T_TXNID_PAIR; T_BYTESTRING; T_BYTESTRING]);      (* enq_insert_no_overwrite *)
    (c "E", [T_FILENUM; T_TXNID_PAIR; T_BYTESTRING]);                    (* enq_delete_any *)
    (c "m", [T_FILENUM; T_FILENUMS; T_TXNID_PAIR; T_BYTESTRING; T_BYTESTRING]);
                                                                         (* enq_insert_multiple *)
    (c "M", [T_FILENUM; T_FILENUMS; T_TXNID_PAIR; T_BYTESTRING; T_BYTESTRING]);
                                                                         (* enq_delete_multiple *)
    (c "T", [T_uint64; T_BYTESTRING]);                                   (* comment *)
    (c "Q", [T_uint64]);                                                 (* shutdown_up_to_19 *)
    (c "0", [T_uint64; T_TXNID]);                                        (* shutdown *)
    (c "l", [T_TXNID_PAIR; T_FILENUM; T_BYTESTRING]);                    (* load *)
    (c "h", [T_TXNID_PAIR; T_FILENUMS]);                                 (* hot_index *)
    (c "u", [T_FILENUM; T_TXNID_PAIR; T_BYTESTRING; T_BYTESTRING]);      (* enq_update *)
    (c "B", [T_FILENUM; T_TXNID_PAIR; T_BYTESTRING; T_bool]);            (* enq_updatebroadcast *)
    (c "D", [T_FILENUM; T_TXNID_PAIR; T_BYTESTRING; T_BYTESTRING; T_bool])
                                                                         (* change_fdescriptor *)
  ].

(** The switch of toku_log_fread (logformat.cc:518-523). *)
Definition fields_of (cmd : N) : option (list ftype) :=
  match find (fun p => fst p =? cmd) logtypes with Some (_, ts) => Some ts | None => None end.

(** struct log_entry: command, lsn and field values. *)
Record lentry := mkE { e_cmd : N; e_lsn : N; e_vals : list fval }.

(** toku_log_<name> (generate_log_writer, logformat.cc:472-502): the bytes appended to the
    logger's buffer for a record whose LSN is [e_lsn e].  buflen is an unsigned int; a
    timestamp field is assumed already filled in.  x1764_memory takes an int length. *)
Definition log_write (e : lentry) : option bytes :=
  do ts <- fields_of (e_cmd e);
  do sz <- logsizes ts (e_vals e);
  let buflen := (4 + 1 + 8 + sz + 8) mod 2 ^ 32 in
  let w0 := wbuf_init buflen in
  do w1 <- wbuf_nocrc_uint w0 buflen;
  do w2 <- wbuf_nocrc_char w1 (e_cmd e);
  do w3 <- wbuf_nocrc_ull w2 (e_lsn e);
  do w4 <- put_fields w3 ts (e_vals e);
  do crc <- x1764_memory_int (w_out w4) (len (w_out w4));
  do w5 <- wbuf_nocrc_uint w4 crc;
  do w6 <- wbuf_nocrc_uint w5 buflen;
  guard len (w_out w6) =? buflen;
  Some (w_out w6).

(** * Reading *)

(** Outcome of a read: a value and the remaining input; -1 (end of file); DB_BADFORMAT;
    or a write outside an object (undefined behaviour). *)
Inductive res (A : Type) :=
| ROk (a : A) (rest : bytes)
| REof
| RBad
| RUb.
Arguments ROk {A}. Arguments REof {A}. Arguments RBad {A}. Arguments RUb {A}.

(** A reader threads the rest of the file, the checksum state and actual_len. *)
Record rst := mkR { r_mm : x1764; r_len : N }.
Definition R (A : Type) := bytes -> rst -> res (A * rst).
Definition rret {A} (a : A) : R A := fun i s => ROk (a, s) i.
Definition rbind {A B} (m : R A) (f : A -> R B) : R B := fun i s =>
  match m i s with
  | ROk (a, s') i' => f a i' s'
  | REof => REof
  | RBad => RBad
  | RUb => RUb
  end.
Notation "'let*' x := m 'in' f" := (rbind m (fun x => f))
  (at level 200, x name, m at level 100, f at level 200, right associativity).

(** toku_fread_uint8_t_nocrclen (logger.cc:917-923). *)
Definition fread_u8_nocrc : R N := fun i s =>
  match i with [] => REof | b :: i' => ROk (b, s) i' end.
(** toku_fread_uint8_t (925-933). *)
Definition fread_u8 : R N := fun i s =>
  match i with
  | [] => REof
  | b :: i' => ROk (b, mkR (x1764_add (r_mm s) [b]) ((r_len s + 1) mod 2 ^ 32)) i'
  end.
(** toku_fread_uint32_t_nocrclen (935-946). *)
Definition fread_u32_nocrc : R N :=
  let* b0 := fread_u8_nocrc in let* b1 := fread_u8_nocrc in
  let* b2 := fread_u8_nocrc in let* b3 := fread_u8_nocrc in
  rret (le_val [b0; b1; b2; b3]).
(** toku_fread_uint32_t (947-957). *)
Definition fread_u32 : R N :=
  let* b0 := fread_u8 in let* b1 := fread_u8 in
  let* b2 := fread_u8 in let* b3 := fread_u8 in
  rret (le_val [b0; b1; b2; b3]).
(** toku_fread_uint64_t (959-966). *)
Definition fread_u64 : R N :=
  let* v1 := fread_u32 in let* v2 := fread_u32 in
  rret (N.lor (N.shiftl v1 32) v2).

(** The byte loop of toku_fread_BYTESTRING and toku_fread_XIDP (1037-1044, 1020-1025). *)
Fixpoint fread_n (n : nat) : R bytes :=
  match n with
  | O => rret []
  | S n' => let* b := fread_u8 in let* l := fread_n n' in rret (b :: l)
  end.
(** The loop of toku_fread_FILENUMS (1055-1062). *)
Fixpoint fread_nums_n (n : nat) : R (list N) :=
  match n with
  | O => rret []
  | S n' => let* b := fread_u32 in let* l := fread_nums_n n' in rret (b :: l)
  end.
(** A loop reading [n] items of at least one byte reaches the end of the file when there
    are fewer than [n] bytes left; testing that first keeps the model computable. *)
Definition fread_many {A} (n : N) (loop : nat -> R A) : R A := fun i s =>
  if len i <? n then REof else loop (N.to_nat n) i s.

(** xid->data is 128 bytes long: a longer identifier is written past its end. *)
Definition XIDDATASIZE : N := 128.
(** toku_fread_XIDP (998-1030).  Both lengths are uint8_t and are not checked. *)
Definition fread_xid : R fval :=
  let* f := fread_u32 in
  let* g := fread_u8 in
  let* b := fread_u8 in
  fun i s =>
    match fread_many (g + b) fread_n i s with
    | ROk (d, s') i' =>
        if g + b <=? XIDDATASIZE then
          ROk (V_xid (Z.of_N f) (firstn (N.to_nat g) d) (skipn (N.to_nat g) d), s') i'
        else RUb
    | REof => if (XIDDATASIZE <? g + b) && (XIDDATASIZE <? len i) then RUb else REof
    | RBad => RBad
    | RUb => RUb
    end.

(** toku_fread_<type> (logger.cc:925-1067). *)
Definition fread_field (t : ftype) : R fval :=
  match t with
  | T_uint8 => let* n := fread_u8 in rret (V_num n)
  | T_bool => let* n := fread_u8 in rret (V_bool (negb (n =? 0)))
  | T_uint32 | T_FILENUM => let* n := fread_u32 in rret (V_num n)
  | T_uint64 | T_BLOCKNUM | T_LSN | T_TXNID => let* n := fread_u64 in rret (V_num n)
  | T_TXNID_PAIR => let* p := fread_u64 in let* q := fread_u64 in rret (V_pair p q)
  | T_XIDP => fread_xid
  | T_FILENUMS =>
      let* n := fread_u32 in let* l := fread_many n fread_nums_n in rret (V_nums l)
  | T_BYTESTRING =>
      let* n := fread_u32 in let* l := fread_many n fread_n in rret (V_bytes l)
  end.
Fixpoint fread_fields (ts : list ftype) : R (list fval) :=
  match ts with
  | [] => rret []
  | t :: ts' => let* v := fread_field t in let* vs := fread_fields ts' in rret (v :: vs)
  end.

(** toku_log_fread_<name> (generate_log_reader, logformat.cc:506-522). *)
Definition log_fread_body (cmd len1 : N) (ts : list ftype) (mm : x1764) : R lentry :=
  fun i _ =>
    (let* lsn := fread_u64 in
     let* vs := fread_fields ts in
     let* crc := fread_u32_nocrc in
     let* len2 := fread_u32_nocrc in
     fun i' s =>
       if negb (crc =? x1764_finish (r_mm s))
          || negb (len2 =? (r_len s + 8) mod 2 ^ 32)
          || negb (len1 =? len2)
       then RBad
       else ROk (mkE cmd lsn vs, s) i') i (mkR mm 5).

(** toku_log_fread (logformat.cc:523-545). *)
Definition log_fread_m : R lentry :=
  let* len1 := fread_u32 in
  let* cmd := fread_u8 in
  fun i s =>
    match fields_of cmd with
    | Some ts => log_fread_body cmd len1 ts (r_mm s) i s
    | None => RBad
    end.
Definition log_fread (i : bytes) : res lentry :=
  match log_fread_m i (mkR x1764_init 0) with
  | ROk (e, _) i' => ROk e i'
  | REof => REof
  | RBad => RBad
  | RUb => RUb
  end.

(** [-(int)len] as a displacement (gcc's conversion; at 2^31 the negation wraps). *)
Definition back_disp (l : N) : Z :=
  if l <=? 2 ^ 31 then (- Z.of_N l)%Z else (2 ^ 32 - Z.of_N l)%Z.

Inductive bres :=
| BOk (e : lentry) (pos : N)   (* 0, with the file position after the call *)
| BTop                         (* -1: at or before the header *)
| BErr                         (* > 0 *)
| BUb.

(** toku_log_fread_backward (logformat.cc:550-572) on file [f] at position [pos]. *)
Definition log_fread_backward (f : bytes) (pos : N) : bres :=
  if pos <=? 12 then BTop
  else
    match fread_u32_nocrc (skipn (N.to_nat (pos - 4)) f) (mkR x1764_init 0) with
    | ROk (l, _) _ =>
        let q := (Z.of_N pos + back_disp l)%Z in
        if (q <? 0)%Z then BErr
        else
          let start := if (Z.of_N (len f) <? q)%Z then [] else skipn (Z.to_nat q) f in
          match log_fread start with
          | ROk e rest =>
              if len f - len rest =? pos then BOk e (Z.to_N q) else BErr
          | RUb => BUb
          | _ => BErr
          end
    | _ => BErr
    end.

(** * Log files *)

(** FT_LAYOUT_VERSION, FT_LAYOUT_MIN_SUPPORTED_VERSION (ft_layout_version.h), used as
    TOKU_LOG_VERSION and TOKU_LOG_MIN_SUPPORTED_VERSION (logger.h:58-59). *)
Definition LOG_VERSION : N := 29.
Definition LOG_MIN_VERSION : N := 13.

Definition magic : bytes := map (fun s => c s)
  ["t"; "o"; "k"; "u"; "l"; "o"; "g"; "g"]%string.
(** open_logfile's header (logger.cc:668-676): magic, then the version in network order. *)
Definition log_header : bytes := magic ++ rev (le_enc 4 LOG_VERSION).

Fixpoint bytes_eqb (a b : bytes) : bool :=
  match a, b with
  | [], [] => true
  | x :: a', y :: b' => (x =? y) && bytes_eqb a' b'
  | _, _ => false
  end.

(** toku_read_logmagic (logger.cc:1219-1239). *)
Definition read_logmagic (f : bytes) : option N :=
  if len f <? 12 then None
  else if bytes_eqb (firstn 8 f) magic then Some (le_val (rev (firstn 4 (skipn 8 f))))
  else None.

(** * The log cursor *)
Inductive lcdir := D_FORWARD | D_BACKWARD | D_FIRST | D_LAST.

(** struct toku_logcursor (logcursor.cc:46-59): the files, cur_logfiles_index, the position
    in the open file, entry_valid with the entry, cur_lsn, last_direction. *)
Record lcur := mkLC
  { l_files : list bytes; l_idx : nat; l_pos : option N;
    l_valid : bool; l_lsn : N; l_dir : lcdir }.

(** toku_logcursor_create (156-193). *)
Definition lc_create (files : list bytes) : lcur := mkLC files 0 None false 0 D_FIRST.

(** What a cursor call returns: 0 with an entry, DB_NOTFOUND, DB_BADFORMAT or another
    read error, DB_RUNRECOVERY. *)
Inductive lres := L_ok (e : lentry) | L_notfound | L_bad | L_lsn_error.

Definition lc_file (lc : lcur) (i : nat) : bytes := nth i (l_files lc) [].
Definition lc_close (lc : lcur) : lcur :=
  mkLC (l_files lc) (l_idx lc) None (l_valid lc) (l_lsn lc) (l_dir lc).
Definition lc_at (lc : lcur) (i : nat) (p : N) : lcur :=
  mkLC (l_files lc) i (Some p) (l_valid lc) (l_lsn lc) (l_dir lc).
Definition lc_idx_set (lc : lcur) (i : nat) : lcur :=
  mkLC (l_files lc) i (l_pos lc) (l_valid lc) (l_lsn lc) (l_dir lc).
Definition lc_invalidate (lc : lcur) : lcur :=
  mkLC (l_files lc) (l_idx lc) (l_pos lc) false (l_lsn lc) (l_dir lc).

(** lc_open_logfile (108-131): the starting position, or an error. *)
Definition lc_open_pos (files : list bytes) (i : nat) : N + lres :=
  if (length files <=? i)%nat then inr L_notfound
  else
    let f := nth i files [] in
    if 12 <=? len f then
      match read_logmagic f with
      | None => inr L_bad
      | Some v =>
          if (v <? LOG_MIN_VERSION) || (LOG_VERSION <? v) then inr L_bad else inl 12
      end
    else inl 0.

(** lc_check_lsn (133-149); the additions are on uint64_t. *)
Definition lc_check_lsn (lc : lcur) (e : lentry) (d : lcdir) : bool :=
  match d with
  | D_FORWARD => e_lsn e =? (l_lsn lc + 1) mod 2 ^ 64
  | D_BACKWARD => e_lsn e =? (l_lsn lc + 2 ^ 64 - 1) mod 2 ^ 64
  | _ => true
  end.

(** The tail common to first/next/prev/last: check the LSN, record the direction. *)
Definition lc_finish (lc : lcur) (e : lentry) (d : lcdir) : lres * lcur :=
  if lc_check_lsn lc e d
  then (L_ok e, mkLC (l_files lc) (l_idx lc) (l_pos lc) true (e_lsn e) d)
  else (L_lsn_error, lc).

(** lc_log_read (231-258); [fuel] counts the files still to be opened.  The outer option is
    None for undefined behaviour or a failed assert. *)
Fixpoint lc_log_read (fuel : nat) (lc : lcur) : option (lres * lcur) :=
  do p <- l_pos lc;
  let f := lc_file lc (l_idx lc) in
  match log_fread (skipn (N.to_nat p) f) with
  | ROk e rest => Some (L_ok e, lc_at lc (l_idx lc) (len f - len rest))
  | RBad => Some (L_bad, lc)
  | RUb => None
  | REof =>
      let lc1 := lc_close lc in
      if (l_idx lc =? length (l_files lc) - 1)%nat then Some (L_notfound, lc1)
      else
        let i := S (l_idx lc) in
        match lc_open_pos (l_files lc) i with
        | inr e => Some (e, lc_idx_set lc1 i)
        | inl p' =>
            match fuel with
            | O => None
            | S fuel' => lc_log_read fuel' (lc_at lc1 i p')
            end
        end
  end.

(** lc_log_read_backward (260-291): recursion on the file index. *)
Fixpoint lc_log_read_backward (i : nat) (lc : lcur) : option (lres * lcur) :=
  do p <- l_pos lc;
  match log_fread_backward (lc_file lc i) p with
  | BOk e p' => Some (L_ok e, lc_at lc i p')
  | BErr => Some (L_bad, lc)
  | BUb => None
  | BTop =>
      let lc1 := lc_close lc in
      match i with
      | O => Some (L_notfound, lc1)
      | S i' =>
          match lc_open_pos (l_files lc) i' with
          | inr e => Some (e, lc_idx_set lc1 i')
          | inl _ => lc_log_read_backward i' (lc_at lc1 i' (len (lc_file lc i')))
          end
      end
  end.

(** toku_logcursor_first (343-369). *)
Definition lc_first (lc0 : lcur) : option (lres * lcur) :=
  let lc1 := lc_invalidate lc0 in
  let lc2 := if (l_idx lc1 =? 0)%nat then lc1 else lc_close lc1 in
  let k (lc : lcur) :=
    do (r, lc') <- lc_log_read (length (l_files lc)) lc;
    match r with
    | L_ok e => Some (lc_finish lc' e D_FIRST)
    | _ => Some (r, lc')
    end in
  match l_pos lc2 with
  | Some _ => k lc2
  | None =>
      match lc_open_pos (l_files lc2) 0 with
      | inr e => Some (e, lc2)
      | inl p => k (lc_at lc2 0 p)
      end
  end.

(** The scan of lc_fix_bad_logfile (464-476): position after the last readable record. *)
Fixpoint scan_good (fuel : nat) (f : bytes) (p : N) : option N :=
  match log_fread (skipn (N.to_nat p) f) with
  | ROk _ rest =>
      match fuel with
      | O => None
      | S fuel' => scan_good fuel' f (len f - len rest)
      end
  | RUb => None
  | _ => Some p
  end.

(** lc_fix_bad_logfile (449-496).  It scans the file the cursor is in, and truncates and
    reopens the last file; cur_logfiles_index is not changed.  truncate extends a shorter
    file with zeros.  [inr] is an error return. *)
Definition lc_fix (lc : lcur) : option (lcur + lres) :=
  let f := lc_file lc (l_idx lc) in
  match read_logmagic f with
  | None => Some (inr L_bad)
  | Some v =>
      if negb (v =? LOG_VERSION) then Some (inr L_bad)
      else
        do good <- scan_good (length f) f 12;
        let last := (length (l_files lc) - 1)%nat in
        let g := lc_file lc last in
        let g' := firstn (N.to_nat good) g ++ repeat 0 (N.to_nat (good - len g)) in
        let files := firstn last (l_files lc) ++ [g'] in
        match lc_open_pos files last with
        | inr _ => Some (inr L_bad)
        | inl _ =>
            Some (inl (mkLC files (l_idx lc) (Some (len g')) (l_valid lc) (l_lsn lc) (l_dir lc)))
        end
  end.

(** The loop of toku_logcursor_last (389-421), recursion on the file index.  After lc_fix
    the stream is that of the last file.  Simplification: if the cursor was in an earlier
    file, later reads of the model use the file named by the index again. *)
Fixpoint lc_last_loop (i : nat) (lc : lcur) : option (lres * lcur) :=
  let f := lc_file lc i in
  let prev (lc : lcur) :=
    let lc1 := lc_close lc in
    match i with
    | O => Some (L_notfound, lc1)
    | S i' =>
        match lc_open_pos (l_files lc) i' with
        | inr e => Some (e, lc_idx_set lc1 i')
        | inl p => lc_last_loop i' (lc_at lc1 i' p)
        end
    end in
  match log_fread_backward f (len f) with
  | BOk e p => Some (L_ok e, lc_at lc i p)
  | BUb => None
  | BTop => prev lc
  | BErr =>
      do x <- lc_fix lc;
      match x with
      | inr _ => Some (L_bad, lc)
      | inl lc' =>
          let g := lc_file lc' (length (l_files lc') - 1) in
          match log_fread_backward g (len g) with
          | BOk e p => Some (L_ok e, lc_at lc' i p)
          | BUb => None
          | _ => prev lc'
          end
      end
  end.

(** toku_logcursor_last (372-432). *)
Definition lc_last (lc0 : lcur) : option (lres * lcur) :=
  let n := length (l_files lc0) in
  let lc1 := lc_invalidate lc0 in
  let lc2 := if (l_idx lc1 =? n - 1)%nat then lc1 else lc_close lc1 in
  let k (lc : lcur) :=
    do (r, lc') <- lc_last_loop (l_idx lc) lc;
    match r with
    | L_ok e => Some (lc_finish lc' e D_LAST)
    | _ => Some (r, lc')
    end in
  match l_pos lc2 with
  | Some _ => k lc2
  | None =>
      match lc_open_pos (l_files lc2) (n - 1) with
      | inr e => Some (e, lc2)
      | inl p => k (lc_at lc2 (n - 1) p)
      end
  end.

(** The re-read of the current record when the direction turns forward (298-303). *)
Definition lc_turn_forward (lc : lcur) : option lcur :=
  match l_dir lc with
  | D_BACKWARD =>
      do p <- l_pos lc;
      let f := lc_file lc (l_idx lc) in
      match log_fread (skipn (N.to_nat p) f) with
      | ROk _ rest => Some (lc_at lc (l_idx lc) (len f - len rest))
      | _ => None
      end
  | _ => Some lc
  end.
(** The same when it turns backward (323-328). *)
Definition lc_turn_backward (lc : lcur) : option lcur :=
  match l_dir lc with
  | D_FORWARD =>
      do p <- l_pos lc;
      match log_fread_backward (lc_file lc (l_idx lc)) p with
      | BOk _ p' => Some (lc_at lc (l_idx lc) p')
      | _ => None
      end
  | _ => Some lc
  end.

(** toku_logcursor_next (293-316). *)
Definition lc_next (lc0 : lcur) : option (lres * lcur) :=
  if l_valid lc0 then
    do lc2 <- lc_turn_forward (lc_invalidate lc0);
    do (r, lc3) <- lc_log_read (length (l_files lc2)) lc2;
    match r with
    | L_ok e => Some (lc_finish lc3 e D_FORWARD)
    | _ => Some (r, lc3)
    end
  else lc_first lc0.

(** toku_logcursor_prev (318-341). *)
Definition lc_prev (lc0 : lcur) : option (lres * lcur) :=
  if l_valid lc0 then
    do lc2 <- lc_turn_backward (lc_invalidate lc0);
    do (r, lc3) <- lc_log_read_backward (l_idx lc2) lc2;
    match r with
    | L_ok e => Some (lc_finish lc3 e D_BACKWARD)
    | _ => Some (r, lc3)
    end
  else lc_last lc0.
