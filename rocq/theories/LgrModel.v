(** The logger's group commit, file rotation and trimming, as steps of concurrent threads.
    ft/logger/logger.cc, ft/logger/log-internal.h, ft/logger/logfilemgr.cc, the caller in
    ft/cachetable/checkpoint.cc and the generated toku_log_<type> functions
    (ft/logger/logformat.cc:434-500).

    One step is one access to shared state.  A critical section under
    output_condition_lock (grab_output, wait_till_…, release_output) is one step: it contains
    no other synchronisation and the fields it touches are otherwise only written by the
    thread that holds output permission.  Waiting on the condition is being disabled until the
    condition holds; lost wakeups are therefore outside the model.

    Not modelled: write_log_files = false (recovery), trim_log_files = false (tests), the byte
    format of records (LogModel.v; here a record is its LSN and its bytes), time and byte
    counters, I/O errors. *)
From Coq Require Import List NArith Bool Arith.
From Verif Require Import Base Bytes.
Import ListNotations.
Local Open Scope N_scope.

(** A log record: its LSN and its encoding. *)
Definition lrec : Type := N * bytes.
Definition r_lsn (r : lrec) : N := fst r.
Definition r_size (r : lrec) : N := len (snd r).
Definition size_of (l : list lrec) : N := fold_right (fun r a => r_size r + a) 0 l.

(** struct logbuf (log-internal.h:83-88): n_in_buf is the size of the contents. *)
Record logbuf := mkBuf { b_recs : list lrec; b_size : N; b_max : N }.
Definition n_in_buf (b : logbuf) : N := size_of (b_recs b).

(** A log file on disk: its number, the records written to it, how many of them are known to
    be on stable storage because of an fsync. *)
Record lfile := mkFile { f_index : N; f_recs : list lrec; f_sync : nat }.

Definition LOGGER_MIN_BUF_SIZE : N := 2 ^ 24.                     (* log-internal.h:63 *)

(** What a log record is written for: a plain record, the begin or the end record of a
    checkpoint (cachetable.cc:4575, 4712). *)
Inductive purpose := Plain | CkBegin | CkEnd.

(** What to go on with after write_outbuf_to_logfile. *)
Inductive cont :=
| KSpace (w : purpose) (d : bytes) (fs : bool)   (* in make_space_in_inbuf *)
| KSync (w : purpose) (l : N).                   (* in maybe_fsync *)

Inductive ret := RNone | RLogged (l : N) | RSynced (l : N).

(** Program counter with local variables; [f] is the local fsynced_lsn. *)
Inductive pc :=
| Ret (r : ret)                                    (* outside the logger *)
| LogLock (w : purpose) (d : bytes) (fs : bool)    (* logformat.cc:482 *)
| LogSpace (w : purpose) (d : bytes) (fs : bool)   (* logger.cc:512 *)
| MsGrab (w : purpose) (d : bytes) (fs : bool)     (* 517 *)
| MsLock (w : purpose) (d : bytes) (fs : bool) (f : N)    (* 519 *)
| MsCheck (w : purpose) (d : bytes) (fs : bool) (f : N)   (* 521-527 *)
| WWrite (k : cont) (f : N)                        (* 478-492 *)
| WRotSync (k : cont) (f : N)                      (* 362 *)
| WRotNote (k : cont) (f : N)                      (* 363-365 *)
| WRotOpen (k : cont) (f : N)                      (* 695-738 *)
| MsGrow (w : purpose) (d : bytes) (fs : bool) (f : N)    (* 533-539 *)
| MsRel (w : purpose) (d : bytes) (fs : bool) (f : N)     (* 522, 540 *)
| Append (w : purpose) (d : bytes) (fs : bool)     (* logformat.cc:484-498 *)
| MfUnlock (w : purpose) (l : N) (fs : bool)       (* logger.cc:805-807 *)
| MfWait (w : purpose) (l : N)                     (* 811 *)
| MfLock (w : purpose) (l f : N)                   (* 818 *)
| MfSwap (w : purpose) (l f : N)                   (* 820 *)
| MfUnlock2 (w : purpose) (l f : N)                (* 822 *)
| MfSync (w : purpose) (l f : N)                   (* 825-830 *)
| MfNote (w : purpose) (l f : N)                   (* 832-834 *)
| MfRel (w : purpose) (l f : N)                    (* 835 *)
| FlLock | FlRead | FlUnlock (l : N)               (* 549-551 *)
| CkNote                                           (* cachetable.cc:4718 *)
| CkTrim                                           (* checkpoint.cc:294-295 *)
| TrGrab (l : N)                                   (* logger.cc:755 *)
| TrLoop (l f : N)                                 (* 761-776 *)
| TrRel (f : N).                                   (* 778 *)

(** struct tokulogger (log-internal.h:90-136), the directory of log files (oldest first; the
    last one is open for writing) and the logfilemgr's list (index, maxlsn).
    [out] is output_is_available with the identity of the holder: None is true.
    [ck] is the checkpoint_safe lock with m_lsn_of_checkpoint_in_progress.
    [hist], [gone] are ghosts: everything logged since the start, everything trimmed. *)
Record lgr := mkL {
  lock : option nat; out : option nat;
  lsn : N; inb : logbuf; outb : logbuf;
  written : N; fsynced : N; n_in_file : N; lg_max : N;
  files : list lfile; nextno : N; lfm : list (N * N);
  last_ck : N; ck : option (nat * option N);
  pcs : nat -> pc;
  hist : list lrec; gone : list lrec }.

(** Calls a thread can make. *)
Inductive lop :=
| OLog (d : bytes) (fs : bool)    (* toku_log_<type>(logger, &lsn, fs, …) *)
| OSync (l : N)                   (* toku_logger_fsync_if_lsn_not_fsynced *)
| OFlush                          (* toku_logger_fsync: DB_ENV->log_flush *)
| OCkBegin (d : bytes)            (* toku_checkpoint … log_begin_checkpoint *)
| OCkEnd (d : bytes).             (* … log_end_checkpoint, note, trim *)

Inductive step_res := Next (s : lgr) | Disabled | Abort.

Definition setpc (p : nat -> pc) (t : nat) (x : pc) : nat -> pc :=
  fun u => if Nat.eqb u t then x else p u.

(** Field updates. *)
Definition go (s : lgr) (t : nat) (x : pc) : lgr :=
  mkL (lock s) (out s) (lsn s) (inb s) (outb s) (written s) (fsynced s) (n_in_file s) (lg_max s)
      (files s) (nextno s) (lfm s) (last_ck s) (ck s) (setpc (pcs s) t x) (hist s) (gone s).
Definition set_lock (s : lgr) (x : option nat) : lgr :=
  mkL x (out s) (lsn s) (inb s) (outb s) (written s) (fsynced s) (n_in_file s) (lg_max s)
      (files s) (nextno s) (lfm s) (last_ck s) (ck s) (pcs s) (hist s) (gone s).
Definition set_out (s : lgr) (x : option nat) : lgr :=
  mkL (lock s) x (lsn s) (inb s) (outb s) (written s) (fsynced s) (n_in_file s) (lg_max s)
      (files s) (nextno s) (lfm s) (last_ck s) (ck s) (pcs s) (hist s) (gone s).
Definition set_fsynced (s : lgr) (x : N) : lgr :=
  mkL (lock s) (out s) (lsn s) (inb s) (outb s) (written s) x (n_in_file s) (lg_max s)
      (files s) (nextno s) (lfm s) (last_ck s) (ck s) (pcs s) (hist s) (gone s).
Definition set_bufs (s : lgr) (i o : logbuf) : lgr :=
  mkL (lock s) (out s) (lsn s) i o (written s) (fsynced s) (n_in_file s) (lg_max s)
      (files s) (nextno s) (lfm s) (last_ck s) (ck s) (pcs s) (hist s) (gone s).
Definition set_files (s : lgr) (x : list lfile) : lgr :=
  mkL (lock s) (out s) (lsn s) (inb s) (outb s) (written s) (fsynced s) (n_in_file s) (lg_max s)
      x (nextno s) (lfm s) (last_ck s) (ck s) (pcs s) (hist s) (gone s).
Definition set_lfm (s : lgr) (x : list (N * N)) : lgr :=
  mkL (lock s) (out s) (lsn s) (inb s) (outb s) (written s) (fsynced s) (n_in_file s) (lg_max s)
      (files s) (nextno s) x (last_ck s) (ck s) (pcs s) (hist s) (gone s).
Definition set_ck (s : lgr) (l : N) (x : option (nat * option N)) : lgr :=
  mkL (lock s) (out s) (lsn s) (inb s) (outb s) (written s) (fsynced s) (n_in_file s) (lg_max s)
      (files s) (nextno s) (lfm s) l x (pcs s) (hist s) (gone s).

(** swap_inbuf_outbuf (logger.cc:461-470). *)
Definition swap (s : lgr) : option lgr :=
  if n_in_buf (outb s) =? 0 then Some (set_bufs s (outb s) (inb s)) else None.

(** The last element of a list of files or of the logfilemgr, changed. *)
Fixpoint on_last {A} (f : A -> A) (l : list A) : list A :=
  match l with [] => [] | [x] => [f x] | x :: l' => x :: on_last f l' end.

(** write() to the open log file, and fsync() of it. *)
Definition file_write (rs : list lrec) (f : lfile) : lfile :=
  mkFile (f_index f) (f_recs f ++ rs) (f_sync f).
Definition file_fsync (f : lfile) : lfile :=
  mkFile (f_index f) (f_recs f) (length (f_recs f)).

(** write_outbuf_to_logfile up to the size test (478-490). *)
Definition write_outbuf (s : lgr) : option lgr :=
  if 0 <? n_in_buf (outb s) then
    if written s <? b_max (outb s) then
      Some (mkL (lock s) (out s) (lsn s) (inb s) (mkBuf [] (b_size (outb s)) (b_max (outb s)))
                (b_max (outb s)) (fsynced s) (n_in_file s + n_in_buf (outb s)) (lg_max s)
                (on_last (file_write (b_recs (outb s))) (files s)) (nextno s) (lfm s) (last_ck s)
                (ck s) (pcs s) (hist s) (gone s))
    else None
  else Some s.

(** toku_logfilemgr_update_last_lsn (logfilemgr.cc:189-193). *)
Definition lfm_update (l : N) (m : list (N * N)) : list (N * N) :=
  on_last (fun e => (fst e, l)) m.

(** open_logfile (logger.cc:695-738). *)
Definition open_logfile (s : lgr) : lgr :=
  mkL (lock s) (out s) (lsn s) (inb s) (outb s) (written s) (written s) 12 (lg_max s)
      (files s ++ [mkFile (nextno s) [] 0]) (nextno s + 1) (lfm s ++ [(nextno s, written s)])
      (last_ck s) (ck s) (pcs s) (hist s) (gone s).

(** delete_logfile (740-748): remove() must find the file. *)
Fixpoint delete_file (i : N) (l : list lfile) : option (lfile * list lfile) :=
  match l with
  | [] => None
  | f :: l' =>
      if f_index f =? i then Some (f, l')
      else match delete_file i l' with Some (g, r) => Some (g, f :: r) | None => None end
  end.

(** grab_output (403-415). *)
Definition grab_output (s : lgr) (t : nat) : option (lgr * N) :=
  match out s with None => Some (set_out s (Some t), fsynced s) | Some _ => None end.
(** release_output (447-458). *)
Definition release_output (s : lgr) (f : N) : lgr :=
  set_out (if fsynced s <? f then set_fsynced s f else s) None.

(** Return from toku_log_<type> for the purpose [w]. *)
Definition log_return (w : purpose) (r : ret) (l : N) (t : nat) (s : lgr) : lgr :=
  match w with
  | Plain => go s t (Ret r)
  | CkBegin => go (set_ck s (last_ck s) (Some (t, Some l))) t (Ret r)
  | CkEnd => go s t CkNote
  end.

Definition after_write (k : cont) (f : N) : pc :=
  match k with KSpace w d fs => MsGrow w d fs f | KSync w l => MfSync w l f end.

Definition wrap (o : option lgr) : step_res := match o with Some s => Next s | None => Abort end.

(** One step of thread [t]; [o] is the call made when it is outside the logger. *)
Definition lstep (s : lgr) (t : nat) (o : lop) : step_res :=
  match pcs s t with
  | Ret _ =>
      match o with
      | OLog d fs => Next (go s t (LogLock Plain d fs))
      | OSync l =>
          (* LSNs come from the logger *)
          if l <=? lsn s then Next (go s t (MfWait Plain l)) else Disabled
      | OFlush => Next (go s t FlLock)
      | OCkBegin d =>
          match ck s with
          | None => Next (go (set_ck s (last_ck s) (Some (t, None))) t (LogLock CkBegin d false))
          | Some _ => Disabled
          end
      | OCkEnd d =>
          match ck s with
          | Some (u, Some _) =>
              if Nat.eqb u t then Next (go s t (LogLock CkEnd d true)) else Disabled
          | _ => Disabled
          end
      end
  | LogLock w d fs =>
      match lock s with
      | None => Next (go (set_lock s (Some t)) t (LogSpace w d fs))
      | Some _ => Disabled
      end
  | LogSpace w d fs =>
      if n_in_buf (inb s) + len d <=? LOGGER_MIN_BUF_SIZE then Next (go s t (Append w d fs))
      else Next (go (set_lock s None) t (MsGrab w d fs))
  | MsGrab w d fs =>
      match grab_output s t with
      | Some (s', f) => Next (go s' t (MsLock w d fs f))
      | None => Disabled
      end
  | MsLock w d fs f =>
      match lock s with
      | None => Next (go (set_lock s (Some t)) t (MsCheck w d fs f))
      | Some _ => Disabled
      end
  | MsCheck w d fs f =>
      if n_in_buf (inb s) + len d <=? LOGGER_MIN_BUF_SIZE then Next (go s t (MsRel w d fs f))
      else if 0 <? n_in_buf (inb s) then
        match swap s with
        | Some s' => Next (go s' t (WWrite (KSpace w d fs) f))
        | None => Abort
        end
      else Next (go s t (MsGrow w d fs f))
  | WWrite k f =>
      match write_outbuf s with
      | Some s' =>
          if lg_max s' <? n_in_file s' then Next (go s' t (WRotSync k f))
          else Next (go s' t (after_write k f))
      | None => Abort
      end
  | WRotSync k f =>
      Next (go (set_files s (on_last file_fsync (files s))) t (WRotNote k f))
  | WRotNote k f =>
      Next (go (set_lfm s (lfm_update (written s) (lfm s))) t (WRotOpen k (written s)))
  | WRotOpen k f => Next (go (open_logfile s) t (after_write k f))
  | MsGrow w d fs f =>
      if b_size (inb s) <? len d then
        let n := N.max (b_size (inb s) * 2) (len d) in
        if (len d <? 2 ^ 30) && (n <? 2 ^ 30) then
          Next (go (set_bufs s (mkBuf (b_recs (inb s)) n (b_max (inb s))) (outb s)) t (MsRel w d fs f))
        else Abort
      else Next (go s t (MsRel w d fs f))
  | MsRel w d fs f => Next (go (release_output s f) t (Append w d fs))
  | Append w d fs =>
      let l := lsn s + 1 in
      (* writing past the end of the buffer is undefined behaviour *)
      if n_in_buf (inb s) + len d <=? b_size (inb s) then
        Next (mkL (lock s) (out s) l (mkBuf (b_recs (inb s) ++ [(l, d)]) (b_size (inb s)) l) (outb s)
                  (written s) (fsynced s) (n_in_file s) (lg_max s) (files s) (nextno s) (lfm s)
                  (last_ck s) (ck s) (setpc (pcs s) t (MfUnlock w l fs)) (hist s ++ [(l, d)]) (gone s))
      else Abort
  | MfUnlock w l fs =>
      let s' := set_lock s None in
      if fs then Next (go s' t (MfWait w l)) else Next (log_return w (RLogged l) l t s')
  | MfWait w l =>
      if l <=? fsynced s then Next (log_return w (RSynced l) l t s)
      else match grab_output s t with
           | Some (s', f) => Next (go s' t (MfLock w l f))
           | None => Disabled
           end
  | MfLock w l f =>
      match lock s with
      | None => Next (go (set_lock s (Some t)) t (MfSwap w l f))
      | Some _ => Disabled
      end
  | MfSwap w l f =>
      match swap s with Some s' => Next (go s' t (MfUnlock2 w l f)) | None => Abort end
  | MfUnlock2 w l f => Next (go (set_lock s None) t (WWrite (KSync w l) f))
  | MfSync w l f =>
      if f <? l then
        if f <=? written s then
          Next (go (set_files s (on_last file_fsync (files s))) t (MfNote w l (written s)))
        else Abort
      else Next (go s t (MfNote w l f))
  | MfNote w l f => Next (go (set_lfm s (lfm_update (written s) (lfm s))) t (MfRel w l f))
  | MfRel w l f => Next (log_return w (RSynced l) l t (release_output s f))
  | FlLock =>
      match lock s with
      | None => Next (go (set_lock s (Some t)) t FlRead)
      | Some _ => Disabled
      end
  | FlRead => Next (go s t (FlUnlock (b_max (inb s))))
  | FlUnlock l => Next (go (set_lock s None) t (MfWait Plain l))
  | CkNote =>
      match ck s with
      | Some (_, Some b) => Next (go (set_ck s b (ck s)) t CkTrim)
      | _ => Abort
      end
  | CkTrim => Next (go s t (TrGrab (last_ck s)))
  | TrGrab l =>
      match grab_output s t with
      | Some (s', f) => Next (go s' t (TrLoop l f))
      | None => Disabled
      end
  | TrLoop l f =>
      match lfm s with
      | (i, m) :: ((_ :: _) as rest) =>
          if l <=? m then Next (go s t (TrRel f))
          else
            match delete_file i (files s) with
            | Some (g, fl) =>
                Next (mkL (lock s) (out s) (lsn s) (inb s) (outb s) (written s) (fsynced s)
                          (n_in_file s) (lg_max s) fl (nextno s) rest (last_ck s) (ck s)
                          (setpc (pcs s) t (TrLoop l f)) (hist s) (gone s ++ f_recs g))
            | None => Abort
            end
      | _ => Next (go s t (TrRel f))
      end
  | TrRel f => Next (go (set_ck (release_output s f) (last_ck s) None) t (Ret RNone))
  end.

(** Every record has at least its 21 bytes of framing (logformat.cc:474-480). *)
Definition op_ok (o : lop) : Prop :=
  match o with OLog d _ | OCkBegin d | OCkEnd d => 21 <= len d | _ => True end.

(** A run: any interleaving of the threads.  Steps of disabled threads do not happen. *)
Inductive lrun : lgr -> list (nat * lop) -> lgr -> Prop :=
| lrun_nil s : lrun s [] s
| lrun_step s t o s' tr s'' :
    op_ok o -> lstep s t o = Next s' -> lrun s' tr s'' -> lrun s ((t, o) :: tr) s''.

(** toku_logfilemgr_init (logfilemgr.cc:80-131): the largest LSN of each file, or of the files
    before it when it is empty.  The last record of a file is what toku_logcursor_last
    returns (C25). *)
Fixpoint lfm_scan (tmp : N) (fl : list (N * list lrec)) : list (N * N) :=
  match fl with
  | [] => []
  | (i, rs) :: fl' =>
      let m := last (map r_lsn rs) tmp in (i, m) :: lfm_scan m fl'
  end.

Definition no_pcs : nat -> pc := fun _ => Ret RNone.
Definition concat_recs (fl : list (N * list lrec)) : list lrec := concat (map snd fl).

(** toku_logger_create, toku_logger_open_with_last_xid (logger.cc:125-221) on a directory with
    the log files [fl], the next unused number being [nexti]. *)
Definition lgr_open (fl : list (N * list lrec)) (nexti lgmax : N) : lgr :=
  let m := lfm_scan 0 fl in
  let l := last (map snd m) 0 in
  let b := mkBuf [] LOGGER_MIN_BUF_SIZE l in
  open_logfile
    (mkL None None l b b l l 0 lgmax
         (map (fun p => mkFile (fst p) (snd p) (length (snd p))) fl) nexti m
         0 None no_pcs (concat_recs fl) []).
