(** Sending messages to the open dictionaries, against the interpreter of RecIdeal.v. *)
From Coq Require Import Sorted.
From Verif Require Import Base UleModel MgrModel MvccModel RecModel RecSpec RecIdeal.
Open Scope N_scope.

(** The open dictionaries are those of the interpreter. *)
Definition Fmatch (fs : files) (o : names) : Prop :=
  NoDup (map fst fs) /\ forall fn, nlook fn o = option_map of_name (flook fn fs).

Lemma flook_In fn fs f : flook fn fs = Some f -> In (fn, f) fs.
Proof. induction fs as [|[n g] fs IH]; cbn; [discriminate|]. destruct (N.eqb_spec n fn) as [->|]; [intros [= ->]; auto|auto]. Qed.
Lemma flook_intro fn fs f : NoDup (map fst fs) -> In (fn, f) fs -> flook fn fs = Some f.
Proof.
  induction fs as [|[n a] fs IH]; cbn; intros H []; inversion H as [|? ? H1 H2]; subst.
  - injection H0 as -> ->. now rewrite N.eqb_refl.
  - destruct (N.eqb_spec n fn) as [->|]; [|auto]. exfalso. apply H1. change fn with (fst (fn, f)). now apply in_map.
Qed.
Lemma flook_none fn fs : flook fn fs = None <-> ~ In fn (map fst fs).
Proof.
  induction fs as [|[n a] fs IH]; cbn; [tauto|]. destruct (N.eqb_spec n fn) as [->|]; [intuition congruence|]. rewrite IH. tauto.
Qed.
Lemma fset_fst fn f fs : map fst (fset fn f fs) = map fst fs.
Proof. unfold fset. rewrite map_map. apply map_ext. intros p. destruct (_ =? _); auto. Qed.
Lemma flook_fset fn f fs g : flook g (fset fn f fs) =
  match flook g fs with Some h => Some (if g =? fn then f else h) | None => None end.
Proof.
  induction fs as [|[n a] fs IH]; cbn; [reflexivity|]. destruct (N.eqb_spec n fn) as [->|E]; cbn.
  - destruct (N.eqb_spec fn g) as [->|]; [now rewrite N.eqb_refl|auto].
  - destruct (N.eqb_spec n g) as [->|]; [|auto]. destruct (N.eqb_spec g fn); [congruence|auto].
Qed.
Lemma fset_same fn fs f : NoDup (map fst fs) -> flook fn fs = Some f -> fset fn f fs = fs.
Proof.
  intros H1 H2. unfold fset. rewrite <- (map_id fs) at 2. apply map_ext_in. intros [n g] Hp. cbn.
  destruct (N.eqb_spec n fn) as [->|]; [|auto]. apply flook_intro in Hp; auto. rewrite H2 in Hp. injection Hp as ->. auto.
Qed.
Lemma flook_fdel fn fs g : flook g (fdel fn fs) = if g =? fn then None else flook g fs.
Proof.
  unfold fdel. induction fs as [|[n a] fs IH]; cbn; [destruct (_ =? _); auto|].
  destruct (N.eqb_spec n fn) as [->|E]; cbn; rewrite IH.
  - destruct (N.eqb_spec g fn) as [E|E]; [auto|]. destruct (N.eqb_spec fn g); [congruence|auto].
  - destruct (N.eqb_spec n g) as [E'|E']; [|auto]. destruct (N.eqb_spec g fn); [congruence|auto].
Qed.

(** ** Messages *)

Fixpoint puts (op : option nat) (ms : fmsgs) (fs : files) : option files :=
  match ms with
  | [] => Some fs
  | (fn, m) :: ms' => do fs1 <- put op fn m fs; puts op ms' fs1
  end.

Definition skips (op : option nat) (f : ofile) : bool :=
  match op with Some l => (l <=? of_lsn f)%nat | None => false end.
Definition addm (op : option nat) (f : ofile) (l : mlist) : ofile :=
  if skips op f || is_nil l then f else mkOf (of_name f) (of_msgs f ++ l) (of_lsn f) true.
Definition for_fn (fn : fnum) (ms : fmsgs) : mlist := map snd (filter (fun p => fst p =? fn) ms).

Lemma addm_name op f l : of_name (addm op f l) = of_name f.
Proof. unfold addm. destruct (_ || _); auto. Qed.
Lemma addm_lsn op f l : of_lsn (addm op f l) = of_lsn f.
Proof. unfold addm. destruct (_ || _); auto. Qed.
Lemma addm_msgs op f l : of_msgs (addm op f l) = if skips op f then of_msgs f else of_msgs f ++ l.
Proof. unfold addm. destruct (skips op f); cbn; [auto|]. destruct l; cbn; [now rewrite app_nil_r|auto]. Qed.
Lemma addm_clean op f l : of_dirty (addm op f l) = false -> addm op f l = f /\ of_dirty f = false.
Proof. unfold addm. destruct (_ || _); cbn; [auto|discriminate]. Qed.
Lemma addm_addm op f l1 l2 : addm op (addm op f l1) l2 = addm op f (l1 ++ l2).
Proof.
  unfold addm at 1. rewrite addm_name, addm_msgs, addm_lsn. unfold skips at 1. rewrite addm_lsn. fold (skips op f).
  unfold addm. destruct (skips op f); cbn; [reflexivity|]. destruct l1, l2; cbn; rewrite ?app_nil_r, ?app_nil_l; auto.
  now rewrite <- app_assoc.
Qed.

Lemma puts_ok op ms : forall fs, NoDup (map fst fs) -> Forall (fun p => flook (fst p) fs <> None) ms ->
  exists fs', puts op ms fs = Some fs' /\ map fst fs' = map fst fs
    /\ forall fn, flook fn fs' = option_map (fun f => addm op f (for_fn fn ms)) (flook fn fs).
Proof.
  induction ms as [|[g m] ms IH]; intros fs Nd H; cbn [puts].
  - exists fs. split; [auto|]. split; [auto|]. intros fn. destruct (flook fn fs) as [f|]; cbn; [|auto].
    unfold addm, for_fn. cbn. rewrite orb_true_r. auto.
  - inversion H as [|? ? H1 H2]; subst. cbn in H1. unfold put. destruct (flook g fs) as [f|] eqn:F; [|congruence].
    fold (skips op f).
    set (fs1 := if skips op f then fs else fset g (mkOf (of_name f) (of_msgs f ++ [m]) (of_lsn f) true) fs).
    assert (E1 : fs1 = fset g (addm op f [m]) fs).
    { unfold fs1, addm. destruct (skips op f); cbn; [|auto]. now rewrite fset_same. }
    assert (F1 : forall x, flook x fs1 <> None <-> flook x fs <> None).
    { intros x. rewrite E1, flook_fset. destruct (flook x fs); intuition congruence. }
    destruct (IH fs1) as (fs' & E & Em & Hf).
    { rewrite E1, fset_fst. auto. }
    { eapply Forall_impl; [|exact H2]. intros p. apply F1. }
    exists fs'. split; [exact E|]. split; [rewrite Em, E1, fset_fst; auto|]. intros fn. rewrite Hf, E1, flook_fset.
    unfold for_fn. cbn [filter fst]. rewrite (N.eqb_sym g fn). destruct (flook fn fs) as [h|] eqn:Fn; [|reflexivity]. cbn [option_map].
    destruct (N.eqb_spec fn g) as [->|]; [|reflexivity]. cbn [map snd]. rewrite addm_addm. assert (f = h) by congruence. subst h. reflexivity.
Qed.

Lemma commit_ents_puts rc op fts x es : forall fs, Forall (fun e => memb (en_fn e) fts = true) es ->
  commit_ents rc op fts x es fs = puts op (commit_msgs x es) fs.
Proof.
  induction es as [|e es IH]; intros fs H; [reflexivity|]. inversion H as [|? ? H1 H2]; subst. cbn [commit_ents commit_msgs flat_map].
  destruct (en_del e); cbn [app puts]; [|apply IH; auto]. unfold do_insertion. rewrite H1. destruct (put _ _ _ _); [|auto]. apply IH. auto.
Qed.
Lemma abort_ents_puts rc op fts x es : forall fs, Forall (fun e => memb (en_fn e) fts = true) es ->
  abort_ents rc op fts x es fs = puts op (abort_msgs x es) fs.
Proof.
  induction es as [|e es IH]; intros fs H; [reflexivity|]. inversion H as [|? ? H1 H2]; subst. cbn [abort_ents abort_msgs map puts].
  unfold do_insertion. rewrite H1. destruct (put _ _ _ _); [|auto]. apply IH. auto.
Qed.

(** ** What a dictionary gets *)

Lemma filter_no {A} (f : A -> bool) l : (forall x, In x l -> f x = false) -> filter f l = [].
Proof. intros H. induction l as [|a l IH]; cbn; [auto|]. rewrite (H a) by (left; auto). apply IH. intros x Hx. apply H. right. auto. Qed.

Lemma mine_fn o fn nm ms : NoDup (map snd o) -> nlook fn o = Some nm -> mine o nm ms = for_fn fn ms.
Proof.
  intros H1 H2. unfold mine, for_fn. f_equal. apply filter_ext. intros [g m]. cbn. destruct (N.eqb_spec g fn) as [->|E].
  - rewrite H2. apply N.eqb_refl.
  - destruct (nlook g o) as [n|] eqn:L; [|auto]. apply N.eqb_neq. intros ->. apply E. eapply nlook_inj; eauto.
Qed.
Lemma mine_closed o nm ms : (forall fn, nlook fn o <> Some nm) -> mine o nm ms = [].
Proof.
  intros H. unfold mine. rewrite filter_no; [auto|]. intros [g m] _. cbn. destruct (nlook g o) as [n|] eqn:L; [|auto].
  apply N.eqb_neq. intros ->. now apply (H g).
Qed.

Lemma Fmatch_keep fs fs' o : Fmatch fs o -> map fst fs' = map fst fs ->
  (forall fn, option_map of_name (flook fn fs') = option_map of_name (flook fn fs)) -> Fmatch fs' o.
Proof. intros [H1 H2] Em H. split; [now rewrite Em|]. intros fn. now rewrite H. Qed.

Lemma Fmatch_some fs o fn : Fmatch fs o -> nlook fn o <> None <-> flook fn fs <> None.
Proof. intros [_ H]. rewrite H. destruct (flook fn fs); cbn; intuition congruence. Qed.

(** The messages of the innermost level go to open dictionaries. *)
Lemma level_open I fs t l ls : IWf I -> In t (i_txns I) -> pt_levels t = l :: ls -> Fmatch fs (i_open I) ->
  Forall (fun e => memb (en_fn e) (rl_fts l) = true) (rl_ents l)
  /\ Forall (fun e => flook (en_fn e) fs <> None) (rl_ents l).
Proof.
  intros W Ht El Fm. pose proof (iw_txns _ W) as HT. rewrite Forall_forall in HT. destruct (HT t Ht) as (_ & _ & Hv).
  rewrite El in Hv. inversion Hv as [|? ? [V1 V2] _]; subst. split; [auto|]. rewrite Forall_forall in *. intros e He.
  apply (Fmatch_some _ _ _ Fm). apply V2. apply memb_In. auto.
Qed.
Lemma commit_msgs_open x es fs : Forall (fun e => flook (en_fn e) fs <> None) es ->
  Forall (fun p => flook (fst p) fs <> None) (commit_msgs x es).
Proof.
  induction 1 as [|e es He _ IH]; cbn; [constructor|]. destruct (en_del e); cbn; [constructor; auto|auto].
Qed.
Lemma abort_msgs_open x es fs : Forall (fun e => flook (en_fn e) fs <> None) es ->
  Forall (fun p => flook (fst p) fs <> None) (abort_msgs x es).
Proof. intros H. unfold abort_msgs. apply Forall_map. exact H. Qed.

(** The outcome of sending [ms]. *)
Definition sent (op : option nat) (ms : fmsgs) (fs fs' : files) : Prop :=
  map fst fs' = map fst fs /\ forall fn, flook fn fs' = option_map (fun f => addm op f (for_fn fn ms)) (flook fn fs).

Lemma sent_nil op fs : sent op [] fs fs.
Proof.
  split; [auto|]. intros fn. destruct (flook fn fs) as [f|]; cbn; [|auto]. unfold addm, for_fn. cbn. now rewrite orb_true_r.
Qed.
Lemma sent_Fmatch op ms fs fs' o : Fmatch fs o -> sent op ms fs fs' -> Fmatch fs' o.
Proof.
  intros F [H1 H2]. eapply Fmatch_keep; eauto. intros fn. rewrite H2. destruct (flook fn fs); cbn; [|auto]. now rewrite addm_name.
Qed.

(** What a commit or abort of the innermost level sends. *)
Definition cmsgs (t : ptxn) : fmsgs :=
  match pt_levels t with [l] => commit_msgs (pt_chain t) (rl_ents l) | _ => [] end.
Definition amsgs (t : ptxn) : fmsgs :=
  match pt_levels t with l :: _ => abort_msgs (pt_chain t) (rl_ents l) | [] => [] end.

Lemma isend_nil o c nm : isend o [] c nm = c nm.
Proof. unfold isend, mine. cbn. apply app_nil_r. Qed.

Lemma commit_inner_ok rc op I fs t : IWf I -> Fmatch fs (i_open I) -> find_pt (pt_root t) (i_txns I) = Some t ->
  exists K fs', istep I (LCommit (pt_root t) (pt_child t)) = Some K
    /\ commit_inner rc op t (i_txns I) fs = Some (i_txns K, fs') /\ sent op (cmsgs t) fs fs'
    /\ i_open K = i_open I /\ (forall nm, i_cont K nm = i_cont I nm ++ mine (i_open I) nm (cmsgs t))
    /\ i_locks K = (if pt_child t =? TXNID_NONE then release (pt_root t) (i_locks I) else i_locks I)
    /\ i_used K = i_used I /\ i_clast K = i_clast I /\ i_ck K = i_ck I.
Proof.
  intros W Fm F. apply find_pt_some in F as HF. destruct HF as [Ht _]. cbn [istep]. rewrite (find_inner_intro _ _ _ F).
  unfold commit_inner, cmsgs. pose proof (iw_txns _ W) as HT. rewrite Forall_forall in HT.
  destruct (HT t Ht) as ((ls & l0 & El & Er & Hc & _) & _ & _).
  destruct (pt_levels t) as [|l [|p ls']] eqn:E; [destruct ls; discriminate| |].
  - destruct (level_open I fs t l [] W Ht E Fm) as [H1 H2]. rewrite (commit_ents_puts _ _ _ _ _ _ H1).
    destruct (puts_ok op (commit_msgs (pt_chain t) (rl_ents l)) fs (proj1 Fm) (commit_msgs_open _ _ _ H2)) as (fs' & -> & S1 & S2).
    eexists; exists fs'. split; [reflexivity|]. split; [reflexivity|]. split; [split; auto|]. cbn [i_open iwith i_cont i_used i_clast i_ck i_locks].
    unfold pt_child. rewrite E, N.eqb_refl. auto 10.
  - eexists; exists fs. split; [reflexivity|]. split; [reflexivity|]. split; [apply sent_nil|]. cbn [i_open iwith i_cont i_used i_clast i_ck i_locks].
    split; [auto|]. split; [intros nm; cbn; now rewrite app_nil_r|].
    destruct ls as [|c0 ls]; [discriminate|]. cbn in El. injection El as <- El. inversion Hc as [|? ? (X & _) _]; subst.
    unfold pt_child. rewrite E. destruct (N.eqb_spec (rl_xid l) TXNID_NONE); [contradiction|auto].
Qed.

Lemma abort_inner_ok rc op I fs t : IWf I -> Fmatch fs (i_open I) -> find_pt (pt_root t) (i_txns I) = Some t ->
  exists K fs', istep I (LAbort (pt_root t) (pt_child t)) = Some K
    /\ abort_inner rc op t (i_txns I) fs = Some (i_txns K, fs') /\ sent op (amsgs t) fs fs'
    /\ i_open K = i_open I /\ (forall nm, i_cont K nm = i_cont I nm ++ mine (i_open I) nm (amsgs t))
    /\ i_locks K = (if pt_child t =? TXNID_NONE then release (pt_root t) (i_locks I) else i_locks I)
    /\ i_used K = i_used I /\ i_clast K = i_clast I /\ i_ck K = i_ck I
    /\ i_txns K = (if is_nil (tl (pt_levels t)) then del_pt (pt_root t) (i_txns I) else set_pt (pop_level t) (i_txns I)).
Proof.
  intros W Fm F. apply find_pt_some in F as HF. destruct HF as [Ht _]. cbn [istep]. rewrite (find_inner_intro _ _ _ F).
  unfold abort_inner, amsgs. pose proof (iw_txns _ W) as HT. rewrite Forall_forall in HT.
  destruct (HT t Ht) as ((ls & l0 & El & Er & Hc & _) & _ & _).
  destruct (pt_levels t) as [|l ls'] eqn:E; [destruct ls; discriminate|].
  destruct (level_open I fs t l ls' W Ht E Fm) as [H1 H2]. rewrite (abort_ents_puts _ _ _ _ _ _ H1).
  destruct (puts_ok op (abort_msgs (pt_chain t) (rl_ents l)) fs (proj1 Fm) (abort_msgs_open _ _ _ H2)) as (fs' & -> & S1 & S2).
  eexists; exists fs'. split; [reflexivity|]. split; [reflexivity|]. split; [split; auto|]. cbn [i_open iwith i_cont i_used i_clast i_ck i_locks i_txns tl].
  split; [auto|]. split; [auto|]. split; [|auto].
  unfold pt_child. rewrite E. destruct ls' as [|p ls']; [reflexivity|]. cbn [is_nil].
  destruct ls as [|c0 ls]; [discriminate|]. cbn in El. injection El as <- El. inversion Hc as [|? ? (X & _) _]; subst.
  destruct (N.eqb_spec (rl_xid l) TXNID_NONE); [contradiction|auto].
Qed.

Lemma put_ok op fn m fs : NoDup (map fst fs) -> flook fn fs <> None ->
  exists fs', put op fn m fs = Some fs' /\ sent op [(fn, m)] fs fs'.
Proof.
  intros Nd H. destruct (puts_ok op [(fn, m)] fs Nd) as (fs' & E & S1 & S2); [constructor; [exact H|constructor]|].
  cbn [puts] in E. destruct (put op fn m fs) as [fs1|]; [|discriminate]. cbn in E. exists fs1. injection E as ->. split; [auto|split; auto].
Qed.
