(** What a dictionary file promises: an abstract file is a map from block numbers to
    contents plus one header string; a checkpoint is a snapshot of it, and a crash goes
    back to a snapshot.  Nothing here mentions offsets, translations or header slots. *)
From Verif Require Import Base Bytes FtDiskModel.
Open Scope N_scope.

Definition image := ((nat -> option bytes) * bytes)%type.

(** The header of the checkpoint in progress is not yet being written / is being written /
    is safely on disk. *)
Inductive hstate := HNone | HMaybe | HDurable.

Record spec := mkS {
  s_cur : image;
  s_ip : option image;   (* the checkpoint in progress *)
  s_cp : option image;   (* the last finished checkpoint *)
  s_lsn : N;             (* the LSN given to the checkpoint in progress *)
  s_h : hstate }.

Definition upd (m : nat -> option bytes) (b : nat) (d : option bytes) : nat -> option bytes :=
  fun i => if Nat.eqb i b then d else m i.
Definition upd_img (x : image) (b : nat) (d : option bytes) : image := (upd (fst x) b d, snd x).
Definition upd_ck (ck : bool) (x : option image) (b : nat) (d : option bytes) : option image :=
  if ck then match x with Some i => Some (upd_img i b d) | None => None end else x.

(** [ck]: the write (or free) belongs to the checkpoint in progress as well. *)
Inductive sstep : spec -> op -> spec -> Prop :=
| ss_alloc a : sstep a OAlloc a
| ss_free a b ck : sstep a (OFree b ck)
    (mkS (upd_img (s_cur a) b None) (upd_ck ck (s_ip a) b None) (s_cp a) (s_lsn a) (s_h a))
| ss_write a b d ck : sstep a (OWrite b d ck)
    (mkS (upd_img (s_cur a) b (Some d)) (upd_ck ck (s_ip a) b (Some d)) (s_cp a) (s_lsn a) (s_h a))
| ss_desc a d : sstep a (ODesc d)
    (mkS (upd_img (s_cur a) 2 (Some d)) (s_ip a) (s_cp a) (s_lsn a) (s_h a))
| ss_pwrite a b : sstep a (OPwrite b) a
| ss_user a u : sstep a (OUser u) (mkS (fst (s_cur a), u) (s_ip a) (s_cp a) (s_lsn a) (s_h a))
| ss_fsync a : sstep a OFsync a
| ss_start a lsn : sstep a (OStart lsn) (mkS (s_cur a) (Some (s_cur a)) (s_cp a) lsn HNone)
| ss_trans a : sstep a OTrans a
| ss_sync a : sstep a OSync a
| ss_hdr a : sstep a OHdr (mkS (s_cur a) (s_ip a) (s_cp a) (s_lsn a) HMaybe)
| ss_hdr_sync a : sstep a OHdrSync (mkS (s_cur a) (s_ip a) (s_cp a) (s_lsn a) HDurable)
| ss_end a junk : sstep a (OEnd junk) (mkS (s_cur a) None (s_ip a) (s_lsn a) HNone)
(** After a crash: the last finished checkpoint, unless the header of the one in progress is
    durable and its LSN acceptable ... *)
| ss_crash_cp a img junk t max : s_cp a = Some img -> ~ (s_h a = HDurable /\ s_lsn a <= max) ->
    sstep a (OCrash junk t max) (mkS img None (Some img) (s_lsn a) HNone)
(** ... the one in progress, if its header is (or may be) on disk and acceptable. *)
| ss_crash_ip a img junk t max : s_ip a = Some img -> s_h a <> HNone -> s_lsn a <= max ->
    sstep a (OCrash junk t max) (mkS img None (Some img) (s_lsn a) HNone).

Definition spec_init (user : bytes) : spec := mkS (fun _ => None, user) None None 0 HNone.
