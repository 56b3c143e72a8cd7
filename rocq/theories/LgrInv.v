(** Invariants of the logger. *)
From Coq Require Import List NArith Sorted.
From Verif Require Import Base Bytes LgrModel LgrSpec.
Import ListNotations.
Local Open Scope N_scope.

Definition has_lock (p : pc) : bool :=
  match p with
  | LogSpace _ _ _ | MsCheck _ _ _ _ | MsGrow _ _ _ _ | MsRel _ _ _ _ | Append _ _ _
  | MfUnlock _ _ _ | MfSwap _ _ _ | MfUnlock2 _ _ _ | FlRead | FlUnlock _ => true
  | WWrite k _ | WRotSync k _ | WRotNote k _ | WRotOpen k _ =>
      match k with KSpace _ _ _ => true | _ => false end
  | _ => false
  end.
Definition has_out (p : pc) : bool :=
  match p with
  | MsLock _ _ _ _ | MsCheck _ _ _ _ | MsGrow _ _ _ _ | MsRel _ _ _ _
  | WWrite _ _ | WRotSync _ _ | WRotNote _ _ | WRotOpen _ _
  | MfLock _ _ _ | MfSwap _ _ _ | MfUnlock2 _ _ _ | MfSync _ _ _ | MfNote _ _ _ | MfRel _ _ _
  | TrLoop _ _ | TrRel _ => true
  | _ => false
  end.
Definition is_append (p : pc) : bool := match p with Append _ _ _ => true | _ => false end.

Definition recs (s : lgr) : list lrec := concat (map f_recs (files s)).
Definition unsynced (fl : list lfile) : list lrec :=
  concat (map (fun f => skipn (f_sync f) (f_recs f)) fl).
Definition settled (fl : list lfile) (x : N) : Prop := Forall (fun r => x < r_lsn r) (unsynced fl).
Definition otop (s : lgr) : N := match b_recs (outb s) with [] => written s | _ => b_max (outb s) end.
Definition top (s : lgr) : N := match b_recs (inb s) with [] => otop s | _ => b_max (inb s) end.

(** The directory and the logfilemgr agree; only the open file may be unsynced. *)
Definition old_ok (f : lfile) (e : N * N) : Prop :=
  f_index f = fst e /\ f_sync f = length (f_recs f) /\ Forall (fun r => r_lsn r <= snd e) (f_recs f).
Definition dir_inv (fl : list lfile) (m : list (N * N)) (nx : N) : Prop :=
  (exists fs cur ms mc, fl = fs ++ [cur] /\ m = ms ++ [mc] /\ Forall2 old_ok fs ms /\
     f_index cur = fst mc /\ (f_sync cur <= length (f_recs cur))%nat) /\
  NoDup (map f_index fl) /\ Forall (fun f => f_index f < nx) fl.

Record dinv (s : lgr) : Prop := {
  d_dir : dir_inv (files s) (lfm s) (nextno s);
  d_hist : gone s ++ recs s ++ b_recs (outb s) ++ b_recs (inb s) = hist s;
  d_sort : StronglySorted N.lt (map r_lsn (hist s));
  d_le : Forall (fun r => r_lsn r <= lsn s) (hist s);
  d_wr : written s <= lsn s;
  d_recs : Forall (fun r => r_lsn r <= written s) (recs s);
  d_ob : Forall (fun r => written s < r_lsn r <= b_max (outb s)) (b_recs (outb s));
  d_ib : Forall (fun r => otop s < r_lsn r) (b_recs (inb s));
  d_top : top s = lsn s;
  d_imax : b_max (inb s) <= lsn s;
  d_omax : b_max (outb s) <= lsn s;
  d_fs : fsynced s <= written s;
  d_set : settled (files s) (fsynced s);
  d_gone : Forall (fun r => r_lsn r < last_ck s) (gone s);
  d_ck : last_ck s <= lsn s;
  d_ckb : forall t b, ck s = Some (t, Some b) -> last_ck s <= b <= lsn s;
  d_ckf : last_ck s <= fsynced s;
  d_ckr : last_ck s = 0 \/ In (last_ck s) (map r_lsn (hist s));
  d_ckbr : forall t b, ck s = Some (t, Some b) -> In b (map r_lsn (hist s));
  d_isz : LOGGER_MIN_BUF_SIZE <= b_size (inb s) /\ n_in_buf (inb s) <= b_size (inb s);
  d_osz : LOGGER_MIN_BUF_SIZE <= b_size (outb s) /\ n_in_buf (outb s) <= b_size (outb s);
  d_pos : Forall (fun r => 0 < r_size r) (b_recs (outb s) ++ b_recs (inb s))
}.

Definition quiet (s : lgr) : Prop :=
  b_recs (inb s) = [] -> fsynced s = written s \/ exists t, lock s = Some t /\ is_append (pcs s t) = true.

Definition fok (s : lgr) (f : N) : Prop := f <= written s /\ settled (files s) f.

(** Facts kept by a thread about the counters. *)
Definition p_mono (s : lgr) (p : pc) : Prop :=
  match p with
  | Ret (RLogged l) => l <= lsn s
  | Ret (RSynced l) => l <= fsynced s
  | MfUnlock _ l _ | MfWait _ l | MfLock _ l _ | MfSwap _ l _ | FlUnlock l => l <= lsn s
  | LogLock _ d _ | LogSpace _ d _ | MsGrab _ d _ | MsLock _ d _ _ | MsCheck _ d _ _
  | MsGrow _ d _ _ | MsRel _ d _ _ | Append _ d _ => 21 <= len d
  | WWrite (KSpace _ d _) _ | WRotSync (KSpace _ d _) _ | WRotNote (KSpace _ d _) _
  | WRotOpen (KSpace _ d _) _ => 21 <= len d
  | _ => True
  end.

(** Facts about the output side, kept by the holder of output permission. *)
Definition kok (s : lgr) (k : cont) : Prop :=
  match k with KSync _ l => l <= written s | _ => True end.
Definition p_out (s : lgr) (p : pc) : Prop :=
  match p with
  | MsLock _ _ _ f | MsCheck _ _ _ f | MsGrow _ _ _ f | MsRel _ _ _ f
  | TrLoop _ f | TrRel f => fok s f /\ b_recs (outb s) = []
  | MfLock _ l f | MfSwap _ l f => fok s f /\ b_recs (outb s) = [] /\ f < l
  | MfUnlock2 _ l f => fok s f /\ l <= otop s /\ f < l
  | WWrite k f => fok s f /\ match k with KSync _ l => l <= otop s /\ f < l | _ => True end
  | WRotSync k f => fok s f /\ b_recs (outb s) = [] /\ kok s k
  | WRotNote k f => unsynced (files s) = [] /\ b_recs (outb s) = [] /\ kok s k
  | WRotOpen k f => f = written s /\ unsynced (files s) = [] /\ b_recs (outb s) = [] /\ kok s k /\
                    exists ms i, lfm s = ms ++ [(i, written s)]
  | MfSync _ l f => fok s f /\ b_recs (outb s) = [] /\ l <= written s /\ (f < l \/ f = written s)
  | MfNote _ l f | MfRel _ l f => fok s f /\ b_recs (outb s) = [] /\ l <= f /\ f = written s
  | _ => True
  end.

(** Facts about the input buffer, kept by the holder of the input lock. *)
Definition p_lock (s : lgr) (p : pc) : Prop :=
  match p with
  | MsGrow _ _ _ _ | WWrite (KSpace _ _ _) _ | WRotSync (KSpace _ _ _) _
  | WRotNote (KSpace _ _ _) _ | WRotOpen (KSpace _ _ _) _ => b_recs (inb s) = []
  | MsRel _ d _ _ | Append _ d _ => n_in_buf (inb s) + len d <= b_size (inb s)
  | _ => True
  end.

(** Facts about the checkpoint in progress. *)
Definition purpose_of (p : pc) : option purpose :=
  match p with
  | LogLock w _ _ | LogSpace w _ _ | MsGrab w _ _ | MsLock w _ _ _ | MsCheck w _ _ _
  | MsGrow w _ _ _ | MsRel w _ _ _ | Append w _ _ | MfUnlock w _ _ | MfWait w _ | MfLock w _ _
  | MfSwap w _ _ | MfUnlock2 w _ _ | MfSync w _ _ | MfNote w _ _ | MfRel w _ _ => Some w
  | WWrite k _ | WRotSync k _ | WRotNote k _ | WRotOpen k _ =>
      match k with KSpace w _ _ => Some w | KSync w _ => Some w end
  | CkNote | CkTrim | TrGrab _ | TrLoop _ _ | TrRel _ => Some CkEnd
  | _ => None
  end.
Definition req_lsn (p : pc) : option N :=
  match p with
  | MfUnlock _ l _ | MfWait _ l | MfLock _ l _ | MfSwap _ l _ | MfUnlock2 _ l _ | MfSync _ l _
  | MfNote _ l _ | MfRel _ l _ => Some l
  | WWrite k _ | WRotSync k _ | WRotNote k _ | WRotOpen k _ =>
      match k with KSync _ l => Some l | _ => None end
  | _ => None
  end.
Definition flag_of (p : pc) : option bool :=
  match p with
  | LogLock _ _ fs | LogSpace _ _ fs | MsGrab _ _ fs | MsLock _ _ fs _ | MsCheck _ _ fs _
  | MsGrow _ _ fs _ | MsRel _ _ fs _ | Append _ _ fs | MfUnlock _ _ fs => Some fs
  | WWrite k _ | WRotSync k _ | WRotNote k _ | WRotOpen k _ =>
      match k with KSpace _ _ fs => Some fs | _ => None end
  | _ => None
  end.
Definition p_ck (s : lgr) (t : nat) (p : pc) : Prop :=
  (purpose_of p = Some CkBegin -> ck s = Some (t, None) /\
     forall l, req_lsn p = Some l -> last_ck s <= l <= lsn s /\ In l (map r_lsn (hist s))) /\
  (purpose_of p = Some CkEnd -> exists b, ck s = Some (t, Some b) /\
     (forall l, req_lsn p = Some l -> b <= l) /\ (p = CkNote -> b <= fsynced s) /\ flag_of p <> Some false) /\
  match p with TrGrab l | TrLoop l _ => l <= last_ck s | _ => True end.
Definition p_quiet (s : lgr) (p : pc) : Prop :=
  match p with TrLoop _ _ | TrRel _ => quiet s | _ => True end.

Definition pc_ok (s : lgr) (t : nat) (p : pc) : Prop :=
  p_mono s p /\ p_out s p /\ p_lock s p /\ p_ck s t p /\ p_quiet s p.

Record linv (s : lgr) : Prop := {
  i_lock : forall t, lock s = Some t <-> has_lock (pcs s t) = true;
  i_out : forall t, out s = Some t <-> has_out (pcs s t) = true;
  i_none : out s = None -> b_recs (outb s) = [] /\ quiet s;
  i_data : dinv s;
  i_pcs : forall t, pc_ok s t (pcs s t)
}.

(** What a step of another thread leaves alone. *)
Record others (s s' : lgr) (u : nat) : Prop := {
  o_lsn : lsn s <= lsn s';
  o_fs : fsynced s <= fsynced s';
  o_hist : incl (hist s) (hist s');
  o_out : has_out (pcs s u) = true ->
          written s' = written s /\ outb s' = outb s /\ files s' = files s /\ lfm s' = lfm s;
  o_lock : has_lock (pcs s u) = true -> inb s' = inb s;
  o_ck : forall x, ck s = Some (u, x) -> ck s' = ck s /\ last_ck s' = last_ck s;
  o_quiet : has_out (pcs s u) = true -> quiet s -> quiet s'
}.

Lemma pc_ok_others s s' u : others s s' u -> pc_ok s u (pcs s u) -> pc_ok s' u (pcs s u).
Proof.
  intros [O1 O2 OH O3 O4 O5 O6] (A & B & C & D & E).
  split; [|split; [|split; [|split]]].
  - destruct (pcs s u); cbn [p_mono] in *; try exact A; try lia.
    destruct r; lia.
  - destruct (has_out (pcs s u)) eqn:H; [|destruct (pcs s u); try discriminate; exact I].
    destruct (O3 eq_refl) as (W & Ob & F & M).
    destruct (pcs s u); cbn [p_out] in *; unfold fok, otop, kok in *; rewrite ?W, ?Ob, ?F, ?M; exact B.
  - destruct (has_lock (pcs s u)) eqn:H; [|destruct (pcs s u); cbn in *; try discriminate; try exact I;
      destruct k; try discriminate; exact I].
    pose proof (O4 eq_refl) as Ib.
    destruct (pcs s u); cbn [p_lock] in *; rewrite ?Ib; exact C.
  - destruct D as (D1 & D2 & D3). split; [|split].
    + intros P. destruct (D1 P) as [K Z]. destruct (O5 _ K) as [E1 E2]. split; [congruence|].
      intros l L. destruct (Z l L) as [Z1 Z2]. split; [rewrite E2; lia|].
      eapply incl_map; eauto.
    + intros P. destruct (D2 P) as (b & K & Z1 & Z2 & Z3). destruct (O5 _ K) as [E1 E2]. exists b.
      split; [congruence|]. split; [exact Z1|]. split; [|exact Z3]. intros X. specialize (Z2 X). lia.
    + destruct (pcs s u) eqn:P; try exact I;
        destruct (D2 eq_refl) as (b & K & _); destruct (O5 _ K) as [E1 E2]; rewrite E2; exact D3.
  - destruct (pcs s u); try exact I; cbn [p_quiet] in *; apply O6; auto.
Qed.
