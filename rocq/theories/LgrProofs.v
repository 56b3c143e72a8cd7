(** The logger's invariants are kept by every step. *)
From Coq Require Import List NArith Sorted.
From Verif Require Import Base Bytes LgrModel LgrSpec LgrInv.
Import ListNotations.
Local Open Scope N_scope.

Lemma on_last_snoc {A} (f : A -> A) l x : on_last f (l ++ [x]) = l ++ [f x].
Proof.
  induction l as [|a l IH]; [reflexivity|]. cbn [app on_last]. rewrite IH.
  destruct l; reflexivity.
Qed.

Lemma size_app a b : size_of (a ++ b) = size_of a + size_of b.
Proof.
  induction a as [|r a IH]; [reflexivity|].
  change (r_size r + size_of (a ++ b) = r_size r + size_of a + size_of b). lia.
Qed.
Lemma size_0 l : Forall (fun r => 0 < r_size r) l -> size_of l = 0 -> l = [].
Proof.
  intros H E. destruct l as [|r l]; [reflexivity|]. inversion H; subst.
  cbn [size_of fold_right] in E. lia.
Qed.

Lemma forall_impl {A} (P Q : A -> Prop) l : (forall x, P x -> Q x) -> Forall P l -> Forall Q l.
Proof. intros H. apply Forall_impl. exact H. Qed.

Lemma concat_snoc {A B} (f : A -> list B) l x : concat (map f (l ++ [x])) = concat (map f l) ++ f x.
Proof. rewrite map_app, concat_app. cbn. now rewrite app_nil_r. Qed.

Lemma unsynced_old fs ms : Forall2 old_ok fs ms -> unsynced fs = [].
Proof.
  unfold unsynced. induction 1 as [|f e fs ms (A & B & C) _ IH]; [reflexivity|].
  cbn [map concat]. rewrite B, skipn_all. exact IH.
Qed.
Lemma unsynced_dir fl m nx : dir_inv fl m nx -> exists fs cur, fl = fs ++ [cur] /\
  unsynced fl = skipn (f_sync cur) (f_recs cur).
Proof.
  intros [(fs & cur & ms & mc & -> & -> & F & _) _]. exists fs, cur. split; [reflexivity|].
  unfold unsynced. rewrite concat_snoc. fold (unsynced fs). erewrite unsynced_old by eauto. reflexivity.
Qed.

Lemma dir_on_last fl m nx g h :
  (forall f, f_index (g f) = f_index f) ->
  (forall f, (f_sync f <= length (f_recs f))%nat -> (f_sync (g f) <= length (f_recs (g f)))%nat) ->
  (forall e, fst (h e) = fst e) ->
  dir_inv fl m nx -> dir_inv (on_last g fl) (on_last h m) nx.
Proof.
  intros G1 G2 H1 [(fs & cur & ms & mc & -> & -> & F & E & L) [ND B]].
  rewrite !on_last_snoc. split; [|split].
  - exists fs, (g cur), ms, (h mc). repeat split; auto. rewrite G1, H1. exact E.
  - rewrite map_app in *. cbn [map] in *. now rewrite G1.
  - apply Forall_app in B as [B1 B2]. apply Forall_app. split; [exact B1|].
    inversion B2; subst. constructor; [now rewrite G1|constructor].
Qed.
Lemma on_last_id {A} (l : list A) : on_last (fun x => x) l = l.
Proof. induction l as [|a l IH]; [reflexivity|]. cbn [on_last]. destruct l; [reflexivity|]. now rewrite IH. Qed.

Lemma NoDup_app_iff' {A} (l : list A) x : NoDup l /\ ~ In x l -> NoDup (l ++ [x]).
Proof.
  intros [H N]. apply NoDup_rev in H. rewrite <- (rev_involutive (l ++ [x])). apply NoDup_rev.
  rewrite rev_app_distr. cbn. constructor; [rewrite <- in_rev; exact N|exact H].
Qed.

#[export] Hint Resolve incl_refl : core.

Ltac dsplit := constructor; cbn [lock out lsn inb outb written fsynced n_in_file lg_max files nextno lfm
  last_ck ck pcs hist gone set_bufs set_files set_lfm set_fsynced set_ck set_lock set_out go open_logfile
  b_recs b_size b_max].

Lemma dinv_swap s : dinv s -> b_recs (outb s) = [] -> dinv (set_bufs s (outb s) (inb s)).
Proof.
  intros D E. pose proof (d_top s D) as T. destruct D. unfold recs, top, otop in *. rewrite E in *.
  dsplit; auto; unfold recs, top, otop; cbn; rewrite ?E; auto.
  - rewrite app_nil_r. exact d_hist.
  - apply Forall_forall. intros r R. rewrite Forall_forall in d_ib. specialize (d_ib r R).
    assert (In r (hist s)).
    { rewrite <- d_hist. rewrite !in_app_iff. auto. }
    rewrite Forall_forall in d_le. specialize (d_le r H).
    destruct (b_recs (inb s)); [destruct R|]. lia.
  - rewrite app_nil_r. exact d_pos.
Qed.

Lemma dinv_write s s' : dinv s -> write_outbuf s = Some s' ->
  dinv s' /\ b_recs (outb s') = [] /\ written s' = otop s /\ lock s' = lock s /\ out s' = out s /\
  pcs s' = pcs s /\ lsn s' = lsn s /\ inb s' = inb s /\ fsynced s' = fsynced s /\ lfm s' = lfm s /\
  ck s' = ck s /\ last_ck s' = last_ck s /\ hist s' = hist s /\ (forall x, fok s x -> fok s' x).
Proof.
  intros D. unfold write_outbuf. destruct (0 <? n_in_buf (outb s)) eqn:Z.
  - destruct (written s <? b_max (outb s)) eqn:W; [|discriminate].
    intros E. injection E as <-. cbn [b_recs outb written lock out pcs lsn inb fsynced lfm ck last_ck].
    assert (NE : b_recs (outb s) <> []).
    { intros E. unfold n_in_buf in Z. rewrite E in Z. discriminate. }
    assert (OT : otop s = b_max (outb s)) by (unfold otop; destruct (b_recs (outb s)); congruence).
    destruct (unsynced_dir _ _ _ (d_dir s D)) as (fs & cur & FE & UE).
    assert (UN : forall x, settled (files s) x -> x <= written s ->
                 settled (on_last (file_write (b_recs (outb s))) (files s)) x).
    { intros x SX LX. unfold settled in *. rewrite UE in SX. rewrite FE, on_last_snoc.
      pose proof (d_dir s D) as [(fs' & cur' & ms & mc & FE' & ME & F2 & IX & LL) _].
      rewrite FE in FE'. apply app_inj_tail in FE' as [<- <-].
      unfold unsynced. rewrite concat_snoc. fold (unsynced fs). rewrite (unsynced_old _ _ F2).
      cbn [app f_sync f_recs file_write].
      rewrite skipn_app. replace (f_sync cur - length (f_recs cur))%nat with 0%nat by lia.
      apply Forall_app. split; [exact SX|]. cbn [skipn].
      eapply Forall_impl; [|apply (d_ob s D)]. cbn. intros; lia. }
    split; [|repeat split; auto].
    + pose proof (d_top s D) as T. unfold top in T. rewrite OT in T.
      pose proof (d_ib s D) as IB. rewrite OT in IB.
      destruct D. dsplit; auto; unfold recs, top, otop; cbn [b_recs outb written inb b_max files].
      * rewrite <- (on_last_id (lfm s)). apply dir_on_last; auto.
        intros f L. cbn. rewrite app_length. lia.
      * rewrite <- d_hist. unfold recs. rewrite FE, on_last_snoc, !concat_snoc. cbn [file_write f_recs].
        cbn [app]. rewrite <- !app_assoc. reflexivity.
      * rewrite FE, on_last_snoc, concat_snoc. cbn [file_write f_recs].
        unfold recs in d_recs. rewrite FE, concat_snoc in d_recs. apply Forall_app in d_recs as [R1 R2].
        rewrite !Forall_app. split; [|split].
        -- eapply Forall_impl; [|exact R1]. cbn; intros; lia.
        -- eapply Forall_impl; [|exact R2]. cbn; intros; lia.
        -- eapply Forall_impl; [|exact d_ob]. cbn; intros; lia.
      * lia.
      * unfold n_in_buf in *. cbn [b_recs size_of fold_right]. lia.
      * cbn [app]. apply Forall_app in d_pos. tauto.
    + cbn [written]. destruct H. lia.
    + cbn [files]. destruct H. apply UN; auto.
  - intros E. injection E as <-.
    assert (NE : b_recs (outb s) = []).
    { apply size_0; [|unfold n_in_buf in Z; lia]. pose proof (d_pos s D). apply Forall_app in H. tauto. }
    split; [exact D|]. split; [exact NE|]. split; [unfold otop; now rewrite NE|].
    repeat split; auto; destruct H; auto.
Qed.

Lemma unsynced_fsync s : dinv s -> unsynced (on_last file_fsync (files s)) = [].
Proof.
  intros D. pose proof (d_dir s D) as [(fs & cur & ms & mc & FE & ME & F2 & _) _].
  rewrite FE, on_last_snoc. unfold unsynced. rewrite concat_snoc. fold (unsynced fs).
  rewrite (unsynced_old _ _ F2). cbn. apply skipn_all.
Qed.
Lemma recs_fsync fl : concat (map f_recs (on_last file_fsync fl)) = concat (map f_recs fl).
Proof.
  induction fl as [|f fl IH]; [reflexivity|]. cbn [on_last]. destruct fl; [reflexivity|].
  cbn [map concat] in *. now rewrite IH.
Qed.
Lemma dinv_fsync s : dinv s -> dinv (set_files s (on_last file_fsync (files s))).
Proof.
  intros D. pose proof (unsynced_fsync s D) as U. destruct D.
  dsplit; auto; unfold recs, settled; cbn [files set_files]; rewrite ?recs_fsync; auto.
  - rewrite <- (on_last_id (lfm s)). apply dir_on_last; auto.
  - rewrite U. constructor.
Qed.

Lemma dinv_note s : dinv s -> dinv (set_lfm s (lfm_update (written s) (lfm s))).
Proof.
  intros D. destruct D. dsplit; auto.
  rewrite <- (on_last_id (files s)). apply dir_on_last; auto.
Qed.

Lemma dinv_open s ms0 i0 : dinv s -> b_recs (outb s) = [] -> unsynced (files s) = [] ->
  lfm s = ms0 ++ [(i0, written s)] -> dinv (open_logfile s).
Proof.
  intros D OE U LM. pose proof (d_top s D) as T. destruct D. unfold recs in *.
  dsplit; auto; unfold recs, settled; cbn [files open_logfile]; rewrite ?concat_snoc; cbn [f_recs]; rewrite ?app_nil_r; auto.
  - destruct d_dir as [(fs & cur & ms & mc & FE & ME & F2 & IX & LL) [ND B]].
    rewrite ME in LM. apply app_inj_tail in LM as [<- ->].
    split; [|split].
    + exists (files s), (mkFile (nextno s) [] 0), (lfm s), (nextno s, written s).
      repeat split; auto. rewrite FE, ME. apply Forall2_app; [exact F2|].
      constructor; [|constructor]. split; [exact IX|]. split.
      * unfold unsynced in U. rewrite FE, concat_snoc in U. fold (unsynced fs) in U.
        rewrite (unsynced_old _ _ F2) in U. cbn [app] in U.
        apply (f_equal (@length _)) in U. rewrite skipn_length in U. cbn in U. lia.
      * rewrite FE, concat_snoc in d_recs. apply Forall_app in d_recs. cbn. tauto.
    + rewrite map_app. cbn [map f_index].
      apply NoDup_app_iff'. split; [exact ND|]. intros H. apply in_map_iff in H as (f & E & IN).
      rewrite Forall_forall in B. specialize (B f IN). lia.
    + apply Forall_app. split; [|repeat constructor; cbn; lia].
      eapply Forall_impl; [|exact B]. cbn; intros; lia.
  - lia.
  - unfold unsynced in *. rewrite concat_snoc, U. constructor.
  - lia.
Qed.

Lemma dinv_grow s n : dinv s -> b_size (inb s) <= n ->
  dinv (set_bufs s (mkBuf (b_recs (inb s)) n (b_max (inb s))) (outb s)).
Proof.
  intros D L. destruct D. dsplit; auto. unfold n_in_buf in *. cbn [b_recs]. lia.
Qed.

Lemma otop_le s : dinv s -> otop s <= lsn s.
Proof. intros []. unfold otop. destruct (b_recs (outb s)); auto. Qed.

Lemma sort_snoc l x : StronglySorted N.lt l -> Forall (fun y => y < x) l -> StronglySorted N.lt (l ++ [x]).
Proof.
  induction 1 as [|a l H IH F]; intros B; cbn; [repeat constructor|].
  inversion B; subst. constructor; [auto|]. apply Forall_app. split; [exact F|]. repeat constructor. auto.
Qed.

Lemma dinv_append s d p : dinv s -> n_in_buf (inb s) + len d <= b_size (inb s) -> 21 <= len d ->
  dinv (mkL (lock s) (out s) (lsn s + 1) (mkBuf (b_recs (inb s) ++ [(lsn s + 1, d)]) (b_size (inb s)) (lsn s + 1))
            (outb s) (written s) (fsynced s) (n_in_file s) (lg_max s) (files s) (nextno s) (lfm s)
            (last_ck s) (ck s) p (hist s ++ [(lsn s + 1, d)]) (gone s)).
Proof.
  intros D R L. pose proof (otop_le s D) as OT. destruct D.
  dsplit; auto; unfold recs, top; cbn [b_recs b_max inb files]; try lia.
  - rewrite <- d_hist. unfold recs. rewrite <- !app_assoc. reflexivity.
  - rewrite map_app. cbn [map]. apply sort_snoc; [exact d_sort|]. apply Forall_map.
    eapply Forall_impl; [|exact d_le]. unfold r_lsn. cbn. intros; lia.
  - apply Forall_app. split; [|repeat constructor; unfold r_lsn; cbn; lia].
    eapply Forall_impl; [|exact d_le]. cbn; intros; lia.
  - apply Forall_app. split; [exact d_ib|]. repeat constructor. unfold r_lsn; cbn. unfold otop in *. cbn [outb written].
    lia.
  - destruct (b_recs (inb s)); reflexivity.
  - intros t b E. specialize (d_ckb t b E). lia.
  - destruct d_ckr as [H|H]; [left; exact H|right]. rewrite map_app, in_app_iff. auto.
  - intros t b E. rewrite map_app, in_app_iff. eauto.
  - unfold n_in_buf in *. cbn [b_recs]. rewrite size_app. cbn [size_of fold_right r_size snd]. unfold r_size. cbn [snd]. lia.
  - rewrite app_assoc. apply Forall_app. split; [exact d_pos|]. repeat constructor. unfold r_size; cbn [snd]. lia.
Qed.

Lemma dinv_fs s f : dinv s -> fok s f -> fsynced s <= f -> dinv (set_fsynced s f).
Proof. intros D [A B] L. destruct D. dsplit; auto. lia. Qed.

Lemma dinv_go s t x : dinv s -> dinv (go s t x).
Proof. intros []; constructor; assumption. Qed.
Lemma dinv_lock s x : dinv s -> dinv (set_lock s x).
Proof. intros []; constructor; assumption. Qed.
Lemma dinv_out s x : dinv s -> dinv (set_out s x).
Proof. intros []; constructor; assumption. Qed.

Lemma release_dinv s f : dinv s -> fok s f -> dinv (release_output s f).
Proof.
  intros D F. unfold release_output. apply dinv_out. destruct (fsynced s <? f) eqn:L.
  - apply dinv_fs; auto. lia.
  - exact D.
Qed.

Lemma dinv_trim s i m rest l g fl p : dinv s -> lfm s = (i, m) :: rest -> rest <> [] -> m < l -> l <= last_ck s ->
  delete_file i (files s) = Some (g, fl) ->
  dinv (mkL (lock s) (out s) (lsn s) (inb s) (outb s) (written s) (fsynced s) (n_in_file s) (lg_max s)
            fl (nextno s) rest (last_ck s) (ck s) p (hist s) (gone s ++ f_recs g)) /\
  (forall x, settled (files s) x -> settled fl x).
Proof.
  intros D LM NE ML LC DF. destruct D.
  destruct d_dir as [(fs & cur & ms & mc & FE & ME & F2 & IX & LL) [ND B]].
  rewrite LM in ME. destruct ms as [|e ms].
  { exfalso. destruct rest; [congruence|]. destruct rest; discriminate. }
  injection ME as <- ->. inversion F2 as [|f e' fs' ms' (FI & FS & FR) F2']; subst.
  rewrite FE in DF. cbn [app delete_file fst] in DF. rewrite FI, N.eqb_refl in DF.
  cbn in FI. injection DF as <- <-. rewrite FE in *.
  unfold recs in *. rewrite FE in *. cbn [app map concat] in *.
  assert (U : unsynced (f :: fs' ++ [cur]) = unsynced (fs' ++ [cur])).
  { unfold unsynced. cbn [map concat]. rewrite FS, skipn_all. reflexivity. }
  split.
  - dsplit; auto; unfold recs; cbn [files].
    + split; [|split].
      * exists fs', cur, ms, mc. auto.
      * inversion ND; auto.
      * inversion B; auto.
    + rewrite <- d_hist. rewrite <- !app_assoc. reflexivity.
    + apply Forall_app in d_recs. tauto.
    + unfold settled in *. rewrite U in d_set. exact d_set.
    + apply Forall_app. split; [exact d_gone|]. eapply Forall_impl; [|exact FR]. cbn; intros; lia.
  - intros x SX. unfold settled in *. rewrite U in SX. exact SX.
Qed.
Lemma delete_found s i m rest : dinv s -> lfm s = (i, m) :: rest -> delete_file i (files s) <> None.
Proof.
  intros D LM. destruct (d_dir s D) as [(fs & cur & ms & mc & FE & ME & F2 & IX & LL) _].
  rewrite FE. destruct ms as [|e ms].
  - inversion F2; subst. rewrite LM in ME. injection ME as <- ->. cbn [app delete_file].
    cbn in IX. rewrite IX, N.eqb_refl. discriminate.
  - rewrite LM in ME. injection ME as <- ->. inversion F2 as [|f e' fs' ms' (FI & _) F2']; subst.
    cbn [app delete_file]. cbn in FI. rewrite FI, N.eqb_refl. discriminate.
Qed.

Lemma dinv_ck s l x : dinv s -> last_ck s <= l <= fsynced s ->
  (l = 0 \/ In l (map r_lsn (hist s))) ->
  (forall t b, x = Some (t, Some b) -> l <= b <= lsn s /\ In b (map r_lsn (hist s))) -> dinv (set_ck s l x).
Proof.
  intros D L R X. destruct D. dsplit; auto; try lia; try (intros; eapply X; eauto).
  - eapply Forall_impl; [|exact d_gone]. cbn; intros; lia.
Qed.

Lemma dinv_ck0 s x : dinv s ->
  (forall t b, x = Some (t, Some b) -> last_ck s <= b <= lsn s /\ In b (map r_lsn (hist s))) ->
  dinv (set_ck s (last_ck s) x).
Proof.
  intros D X. apply dinv_ck; auto.
  - pose proof (d_ckf s D). lia.
  - apply (d_ckr s D).
Qed.

(** * From the pieces to the invariant *)

Definition moved (h : pc -> bool) (a b : option nat) (t : nat) (p q : pc) : Prop :=
  (b = a /\ h q = h p) \/ (a = None /\ b = Some t /\ h q = true) \/ (b = None /\ h p = true /\ h q = false).

Lemma moved_ok h a b t (pp : nat -> pc) q : (forall u, a = Some u <-> h (pp u) = true) ->
  moved h a b t (pp t) q -> forall u, b = Some u <-> h (setpc pp t q u) = true.
Proof.
  intros A M u. unfold setpc. destruct (Nat.eqb_spec u t) as [->|NE].
  - destruct M as [[-> M]|[(-> & -> & M)|(-> & P & M)]]; rewrite M.
    + apply A.
    + tauto.
    + split; discriminate.
  - destruct M as [[-> M]|[(-> & -> & M)|(-> & P & M)]].
    + apply A.
    + split; intros H; [congruence|]. apply A in H. discriminate.
    + split; intros H; [congruence|]. apply A in H. apply A in P. congruence.
Qed.

Lemma quiet_keep s s' t q : linv s -> pcs s' = setpc (pcs s) t q ->
  moved has_lock (lock s) (lock s') t (pcs s t) q ->
  is_append (pcs s t) = false -> inb s' = inb s -> written s' = written s -> fsynced s' = fsynced s ->
  quiet s -> quiet s'.
Proof.
  intros I P M AP IB W F Q E. rewrite IB in E. destruct (Q E) as [H|(v & L & A)].
  - left. congruence.
  - right. exists v. assert (NE : v <> t) by (intros ->; congruence).
    rewrite P. unfold setpc. destruct (Nat.eqb_spec v t) as [|_]; [congruence|]. split; [|exact A].
    destruct M as [[M _]|[(M & _)|(_ & M & _)]]; [congruence|congruence|].
    apply (i_lock s I) in M. congruence.
Qed.

Lemma linv_intro s s' t q : linv s -> pcs s' = setpc (pcs s) t q ->
  dinv s' -> pc_ok s' t q ->
  moved has_lock (lock s) (lock s') t (pcs s t) q ->
  moved has_out (out s) (out s') t (pcs s t) q ->
  (out s' = None -> (out s = None /\ outb s' = outb s) \/ (b_recs (outb s') = [] /\ quiet s')) ->
  lsn s <= lsn s' -> fsynced s <= fsynced s' -> incl (hist s) (hist s') ->
  has_out (pcs s t) = true \/
    (written s' = written s /\ outb s' = outb s /\ files s' = files s /\ lfm s' = lfm s) ->
  has_lock (pcs s t) = true \/ inb s' = inb s ->
  (exists x, ck s = Some (t, x)) \/ ck s = None \/ (ck s' = ck s /\ last_ck s' = last_ck s) ->
  (is_append (pcs s t) = true /\ b_recs (inb s') <> []) \/
    has_out (pcs s t) = true \/
    (is_append (pcs s t) = false /\ inb s' = inb s /\ written s' = written s /\ fsynced s' = fsynced s) ->
  linv s'.
Proof.
  intros I P D PO ML MO HN HL HF HH HO HI HC HQ.
  assert (QK : has_out (pcs s t) = true \/ (quiet s -> quiet s')).
  { destruct HQ as [[A B]|[A|(A & B & C & E)]].
    - right. intros _ X. congruence.
    - auto.
    - right. intros Q. eapply quiet_keep; eauto. }
  constructor; auto.
  - rewrite P. eapply moved_ok; [apply (i_lock s I)|exact ML].
  - rewrite P. eapply moved_ok; [apply (i_out s I)|exact MO].
  - intros N. destruct (HN N) as [[N0 E]|H]; [|exact H].
    destruct (i_none s I N0) as [E1 Q]. rewrite E. split; [exact E1|].
    destruct QK as [A|A]; [|auto]. apply (i_out s I) in A. congruence.
  - intros u. rewrite P. unfold setpc. destruct (Nat.eqb_spec u t) as [->|NE]; [exact PO|].
    apply pc_ok_others with (s := s); [|apply (i_pcs s I)].
    constructor; auto.
    + intros H. destruct HO as [A|A]; [|exact A]. apply (i_out s I) in A, H. congruence.
    + intros H. destruct HI as [A|A]; [|exact A]. apply (i_lock s I) in A, H. congruence.
    + intros x E. destruct HC as [[y A]|[A|A]]; [congruence|congruence|exact A].
    + intros H Q. destruct QK as [A|A]; [|auto]. apply (i_out s I) in A, H. congruence.
Qed.
