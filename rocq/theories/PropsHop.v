(** C56: hot optimize pushes the messages of a range down to the leaves.
    C57: the header's count of hot optimizes in progress. *)
From Coq Require Import Sorted Permutation.
From Verif Require Import Base Bytes LtSpec KeyCmp KOrd PivotModel PivotProofs HopModel HopSpec HopProofs.
Open Scope nat_scope.

(** One descent, from any key: it comes to a leaf, loses and doubles no
    message, puts none into a buffer that was not in one before, and leaves
    none in a buffer for the keys above [highest] up to the key it reports;
    and that key is above [highest]. *)
Theorem C56_round : forall c, cmp_ok c -> forall h t highest, good_tree c h None None t ->
  exists t1 mc, hot_round c (height t) highest None t = Some (t1, mc) /\ good_tree c h None None t1 /\
    Permutation (waiting t1 ++ in_leaves t1) (waiting t ++ in_leaves t) /\
    incl (waiting t1) (waiting t) /\ pivots t1 = pivots t /\
    (forall p, mc = Some p -> In p (pivots t) /\ above c highest p) /\
    (forall m, In m (waiting t1) -> above c highest (fst m) -> ~ upto c (fst m) mc).
Proof.
  intros c ok h t H G. rewrite (good_height h None None t G).
  destruct (round_ok ok h None None H t G I I) as (t1 & mc & E & G1 & P1 & W1 & Q1 & X1 & _ & X3 & X4).
  exists t1, mc. split; auto. split; auto. split; auto. split; auto. split; auto. split.
  - intros p ->. destruct X4 as [Y|(q & Y & J)]; [discriminate|]. injection Y as <-. split; auto.
  - intros m J A U. eauto.
Qed.
Print Assumptions C56_round.

(** A whole run, whatever others do between the descents and however long it
    takes: when it returns 0, no message that was there at the start waits in
    a buffer for a key above [left] and up to [right]. *)
Theorem C56_range : forall c, cmp_ok c -> forall n h t left right t1, good_tree c h None None t ->
  hot_run c (others c n) right left t true t1 ->
  forall m, In m (waiting t1) -> (snd m <= n)%N -> above c left (fst m) -> upto c (fst m) right -> False.
Proof.
  intros c ok n h t left right t1 G R.
  (* [left] is where the first descent starts; later ones start further on *)
  assert (K : forall highest t b t1, hot_run c (others c n) right highest t b t1 -> b = true ->
    (exists h, good_tree c h None None t) ->
    (forall m, In m (waiting t) -> (snd m <= n)%N -> above c left (fst m) -> above c highest (fst m)) ->
    forall m, In m (waiting t1) -> (snd m <= n)%N -> above c left (fst m) -> upto c (fst m) right -> False).
  { clear h t t1 G R. intros highest t b t1 R.
    induction R as [highest t t1 mc E D | highest t t1 mc E | highest t t1 mc t2 b t3 E D V R IH]; intros B (h & G) K m I Lm A U;
      try discriminate.
    - destruct (C56_round c ok h t highest G) as (t1' & mc' & E' & _ & _ & W & _ & _ & X). rewrite E in E'. injection E' as <- <-.
      apply (X m I (K m (W m I) Lm A)). destruct mc as [p|]; cbn in *; auto.
      destruct right as [r|]; [|discriminate]. destruct (c p r) eqn:Q; try discriminate. apply (gt_klt ok) in Q. cbn in U. kord ok.
    - destruct (C56_round c ok h t highest G) as (t1' & mc' & E' & _ & _ & W & _ & _ & X). rewrite E in E'. injection E' as <- <-.
      destruct V as [V1 V2]. apply (IH B V1) with (m := m); auto.
      intros x J Lx Ax. pose proof (V2 x J Lx) as J1. specialize (X x J1 (K x (W x J1) Lx Ax)).
      destruct mc as [p|]; cbn in *; auto. destruct (klt_or_kle ok p (fst x)); auto. tauto. }
  apply (K left t true t1 R eq_refl). { eauto. } auto.
Qed.
Print Assumptions C56_range.

(** Alone, from end to end: it ends after at most one descent per pivot and
    one more, with every message once, and none of the range in a buffer. *)
Theorem C56_ends : forall c, cmp_ok c -> forall h t left right, good_tree c h None None t ->
  exists t1 k, hot_optimize c (S (length (pivots t))) right left t = Some (t1, k) /\
    1 <= k <= S (length (pivots t)) /\ good_tree c h None None t1 /\
    Permutation (waiting t1 ++ in_leaves t1) (waiting t ++ in_leaves t) /\
    (left = None -> right = None -> waiting t1 = []) /\
    (forall m, In m (waiting t1) -> above c left (fst m) -> ~ upto c (fst m) right).
Proof.
  intros c ok h t left right G.
  set (ab := fun (H : option bytes) p => match H with None => true | Some k => kltb c k p end).
  assert (AB : forall H p, ab H p = true <-> above c H p).
  { intros [k|] p; cbn; [apply kltb_true|tauto]. }
  assert (K : forall f H t, good_tree c h None None t -> length (filter (ab H) (pivots t)) < f ->
    (forall m, In m (waiting t) -> above c left (fst m) -> above c H (fst m)) ->
    exists t1 k, hot_optimize c f right H t = Some (t1, k) /\ 1 <= k <= f /\ good_tree c h None None t1 /\
    Permutation (waiting t1 ++ in_leaves t1) (waiting t ++ in_leaves t) /\
    (forall m, In m (waiting t1) -> above c left (fst m) -> ~ upto c (fst m) right)).
  { clear t G. induction f as [|f IH]; intros H t G F K; [lia|]. cbn [hot_optimize].
    destruct (C56_round c ok h t H G) as (t1 & mc & -> & G1 & P1 & W & Q & Y & X). cbn [fst snd].
    destruct (hot_done c right mc) eqn:D.
    - exists t1, 1. split; auto. split; [lia|]. split; auto. split; auto.
      intros m I A U. apply (X m I (K m (W m I) A)). destruct mc as [p|]; cbn in *; auto.
      destruct right as [r|]; [|discriminate]. destruct (c p r) eqn:Z; try discriminate. apply (gt_klt ok) in Z. cbn in U. kord ok.
    - destruct mc as [p|]; [|discriminate]. destruct (Y p eq_refl) as [Y1 Y2].
      destruct (IH (Some p) t1 G1) as (t2 & k & -> & B & G2 & P2 & X2).
      + rewrite Q. assert (M : forall l, In p l -> length (filter (ab (Some p)) l) < length (filter (ab H) l)).
        { assert (M0 : forall l, length (filter (ab (Some p)) l) <= length (filter (ab H) l)).
          { induction l as [|q l IHl]; cbn [filter]; auto. destruct (ab (Some p) q) eqn:Z.
            - assert (ab H q = true) as ->.
              { apply AB. apply AB in Z. destruct H as [k|]; cbn in *; auto. kord ok. }
              cbn [length]. lia.
            - destruct (ab H q); cbn [length]; lia. }
          induction l as [|q l IHl]; intros J; [destruct J|]. cbn [filter]. destruct J as [->|J].
          - rewrite (proj2 (AB H p) Y2). assert (ab (Some p) p = false) as ->.
            { destruct (ab (Some p) p) eqn:Z; auto. apply AB in Z. cbn in Z. exfalso. kord ok. }
            cbn [length]. specialize (M0 l). lia.
          - specialize (IHl J). destruct (ab (Some p) q) eqn:Z.
            + assert (ab H q = true) as ->.
              { apply AB. apply AB in Z. destruct H as [k|]; cbn in *; auto. kord ok. }
              cbn [length]. lia.
            + destruct (ab H q); cbn [length]; lia. }
        specialize (M _ Y1). lia.
      + intros m I A. specialize (X m I (K m (W m I) A)). cbn in *. destruct (klt_or_kle ok p (fst m)); auto. tauto.
      + exists t2, (S k). cbn [fst snd]. split; auto. split; [lia|]. split; auto. split; auto. rewrite P2. auto. }
  destruct (K (S (length (pivots t))) left t G) as (t1 & k & E & B & G1 & P1 & X).
  { assert (forall l, length (filter (ab left) l) <= length l) as Fl.
    { induction l as [|q l IHl]; cbn [filter]; auto. destruct (ab left q); cbn [length]; lia. }
    specialize (Fl (pivots t)). lia. }
  { auto. }
  exists t1, k. split; auto. split; auto. split; auto. split; auto. split; auto.
  intros -> ->. destruct (waiting t1) as [|m r] eqn:Wt; auto.
  exfalso. apply (X m); cbn; auto.
Qed.
Print Assumptions C56_ends.

(** *** Refuted: "between left and right (inclusive)" (ft/ft-flusher.h:139)

    The descent starts in the child where the keys _greater_ than [left]
    begin.  When [left] is a pivot, the message for [left] itself is in the
    child before that one and stays where it is. *)
Definition hop_bad : htree :=
  HNode [[5%N]] [([([5%N], 1%N)], HLeaf []); ([([7%N], 2%N)], HLeaf [])].
Lemma hop_bad_good : good_tree key_cmp 1 None None hop_bad.
Proof.
  split; [repeat constructor|]. split; [intros p [<-|[]]; cbn; auto|]. split; [reflexivity|].
  intros [|[|[|i]]] b t1 E; cbn in E; try discriminate; injection E as <- <-; (split; [exact I|]);
    intros m [<-|[]]; cbn; unfold kle, klt; split; auto; vm_compute; congruence.
Qed.

Theorem C56_left_inclusive_refuted :
  ~ (forall c, cmp_ok c -> forall n h t left right t1, good_tree c h None None t ->
     hot_run c (others c n) (Some right) (Some left) t true t1 ->
     forall m, In m (waiting t1) -> (snd m <= n)%N -> kle c left (fst m) -> kle c (fst m) right -> False).
Proof.
  intros K.
  apply (K key_cmp key_cmp_ok 2%N 1 hop_bad [5%N] [5%N]
    (HNode [[5%N]] [([([5%N], 1%N)], HLeaf []); ([], HLeaf [([7%N], 2%N)])]) hop_bad_good) with (m := ([5%N], 1%N)).
  - eapply hot_last; vm_compute; reflexivity.
  - cbn. auto.
  - cbn. lia.
  - vm_compute. congruence.
  - vm_compute. congruence.
Qed.
Print Assumptions C56_left_inclusive_refuted.

(** What the header says after a run: "all messages before this msn have been
    applied to leaf nodes" (ft/ft-internal.h:161-162).  True of a run over the
    whole dictionary; a failed run leaves the field alone. *)
Theorem C56_recorded : forall c, cmp_ok c -> forall n h t t1 hd ok1, good_tree c h None None t ->
  hot_run c (others c n) None None t ok1 t1 ->
  let hd1 := note_hot_complete hd ok1 n in
  if ok1 then hh_msn hd1 = n /\ (forall m, In m (waiting t1) -> (hh_msn hd1 < snd m)%N)
  else hh_msn hd1 = hh_msn hd.
Proof.
  intros c ok n h t t1 hd [] G R; cbn; auto. split; auto. intros m J.
  destruct (N.le_gt_cases (snd m) n) as [l|l]; auto.
  exfalso. apply (C56_range c ok n h t None None t1 G R m J l); cbn; auto.
Qed.
Print Assumptions C56_recorded.

(** *** Refuted for a run over a range: the same field is set, with messages
    before it still in the buffers of the rest of the dictionary. *)
Theorem C56_recorded_refuted :
  ~ (forall c, cmp_ok c -> forall n h t left right t1 hd, good_tree c h None None t ->
     hot_run c (others c n) right left t true t1 ->
     forall m, In m (waiting t1) -> (hh_msn (note_hot_complete hd true n) <= snd m)%N).
Proof.
  intros K.
  assert (R : hot_run key_cmp (others key_cmp 2%N) None (Some [6%N]) hop_bad true
    (HNode [[5%N]] [([([5%N], 1%N)], HLeaf []); ([], HLeaf [([7%N], 2%N)])])).
  { eapply hot_last; vm_compute; reflexivity. }
  pose proof (K key_cmp key_cmp_ok 2%N 1 hop_bad (Some [6%N]) None _ hh_create hop_bad_good R ([5%N], 1%N) (or_introl eq_refl)) as Q.
  vm_compute in Q. congruence.
Qed.
Print Assumptions C56_recorded_refuted.

(** A tree of height two with messages at both levels; the run takes as many
    descents as there are leaves. *)
Definition hop_ex : htree :=
  HNode [[5%N]]
    [([([3%N], 9%N); ([1%N], 8%N)], HNode [[2%N]] [([([2%N], 4%N)], HLeaf [([1%N], 1%N)]); ([], HLeaf [])]);
     ([([7%N], 7%N)], HNode [] [([([7%N], 5%N)], HLeaf [])])].
Example hop_ex_run : hot_optimize key_cmp 4 None None hop_ex =
  Some (HNode [[5%N]]
    [([], HNode [[2%N]] [([], HLeaf [([1%N], 1%N); ([2%N], 4%N); ([1%N], 8%N)]); ([], HLeaf [([3%N], 9%N)])]);
     ([], HNode [] [([], HLeaf [([7%N], 5%N); ([7%N], 7%N)])])], 3).
Proof. vm_compute. reflexivity. Qed.
Example hop_ex_good : good_tree key_cmp 2 None None hop_ex.
Proof.
  split; [repeat constructor|]. split; [intros p [<-|[]]; cbn; auto|]. split; [reflexivity|].
  intros [|[|[|i]]] b t1 E; cbn in E; try discriminate; injection E as <- <-; split.
  - split; [repeat constructor|]. split; [intros p [<-|[]]; cbn; split; auto; unfold kle; vm_compute; congruence|]. split; [reflexivity|].
    intros [|[|[|i]]] b t1 E; cbn in E; try discriminate; injection E as <- <-; (split; [exact I|]);
      intros m J; cbn in J; repeat destruct J as [<-|J]; try contradiction; cbn; unfold kle, klt; split; auto; vm_compute; congruence.
  - intros m [<-|[<-|[]]]; cbn; unfold kle; split; auto; vm_compute; congruence.
  - split; [constructor|]. split; [intros p []|]. split; [reflexivity|].
    intros [|[|i]] b t1 E; cbn in E; try discriminate; injection E as <- <-; (split; [exact I|]);
      intros m [<-|[]]; cbn; unfold kle, klt; split; auto; vm_compute; congruence.
  - intros m [<-|[]]; cbn; unfold klt; split; auto; vm_compute; congruence.
Qed.

(** * C57 *)

(** What can happen to the header's account after a start: [r] is the number
    of hot optimizes running. *)
Inductive account (h0 : hhdr) : hhdr -> N -> Prop :=
| acc_start : account h0 h0 0
| acc_begin h r : account h0 h r -> (r + 1 < U32)%N -> account h0 (note_hot_begin h) (r + 1)
| acc_end h r ok msn : account h0 h (r + 1) -> account h0 (note_hot_complete h ok msn) r.

(** In a dictionary that was never closed by a crash with one running, the
    count is the number running. *)
Lemma u32_up n : (n + 1 < U32)%N -> ((n + 1) mod U32 = n + 1)%N.
Proof. intros. apply N.mod_small. auto. Qed.
Lemma u32_down n : (n < U32)%N -> ((n + 1 + U32 - 1) mod U32 = n)%N.
Proof.
  intros L. replace (n + 1 + U32 - 1)%N with (n + 1 * U32)%N by lia.
  rewrite N.mod_add by (unfold U32; lia). apply N.mod_small. auto.
Qed.

Theorem C57_count : forall msn h r, account (hh_open 0 msn) h r -> hh_count h = r.
Proof.
  intros msn h r A.
  assert (hh_count h = r /\ hh_disk h = 0%N /\ (r < U32)%N) as (? & _); auto.
  induction A as [| h r A (IH1 & IH2 & IH3) L | h r ok1 m A (IH1 & IH2 & IH3)].
  - cbn. repeat split; auto.
  - unfold note_hot_begin. cbn [hh_count hh_disk]. rewrite IH1, u32_up by auto. auto.
  - unfold note_hot_complete. rewrite IH1, IH2, u32_down by lia.
    destruct ok1; cbn [hh_count hh_disk]; repeat split; auto; try lia.
    destruct (N.eqb_spec r 0); lia.
Qed.
Print Assumptions C57_count.

(** After a crash with [d] running the count is too high by [d], no more and
    no less, until the first successful run that leaves nobody else running;
    that one sets it right. *)
Inductive unreset (d : N) (h0 : hhdr) : hhdr -> N -> Prop :=
| unr_start : unreset d h0 h0 0
| unr_begin h r : unreset d h0 h r -> (d + r + 1 < U32)%N -> unreset d h0 (note_hot_begin h) (r + 1)
| unr_end h r ok msn : unreset d h0 h (r + 1) -> (ok = true -> r <> 0%N) -> unreset d h0 (note_hot_complete h ok msn) r.

Theorem C57_after_crash_partial : forall d msn h r, (d < U32)%N -> unreset d (hh_open d msn) h r ->
  hh_count h = (d + r)%N /\
  (r = 1%N -> forall m, hh_count (note_hot_complete h true m) = 0%N).
Proof.
  intros d msn h r D A.
  assert (hh_count h = (d + r)%N /\ hh_disk h = d /\ (d + r < U32)%N) as (E1 & E2 & E3).
  { induction A as [| h r A (IH1 & IH2 & IH3) L | h r ok1 m A (IH1 & IH2 & IH3) N].
    - cbn [hh_open hh_count hh_disk]. repeat split; lia.
    - unfold note_hot_begin. cbn [hh_count hh_disk]. rewrite IH1, u32_up by auto. repeat split; lia.
    - unfold note_hot_complete. rewrite IH1, IH2. replace (d + (r + 1))%N with (d + r + 1)%N by lia. rewrite u32_down by lia.
      destruct ok1; cbn [hh_count hh_disk]; repeat split; try lia.
      destruct (N.eqb_spec (d + r) d); auto. specialize (N eq_refl). lia. }
  split; auto. intros -> m. unfold note_hot_complete. rewrite E1, E2, u32_down by lia. cbn [hh_count]. rewrite N.eqb_refl. auto.
Qed.
Print Assumptions C57_after_crash_partial.

(** *** Refuted: after a crash the count need not be the number running even
    once it has been set right, and can wrap.  The number read from disk is
    kept, and compared with, for as long as the dictionary is open
    (ft/ft.cc:545-546). *)
Theorem C57_after_crash_refuted : forall msn,
  exists h1 h2 h3, account (hh_open 1 msn) h1 0 /\ hh_count h1 = 0%N /\
    account h1 h2 1 /\ hh_count h2 = 0%N /\
    account h1 h3 0 /\ hh_count h3 = (U32 - 1)%N.
Proof.
  intros msn.
  set (h1 := note_hot_complete (note_hot_begin (hh_open 1 msn)) true 7).
  set (h2 := note_hot_complete (note_hot_begin (note_hot_begin h1)) true 8).
  assert (A : account h1 h2 1).
  { apply (acc_end h1 (note_hot_begin (note_hot_begin h1)) 1 true 8).
    apply (acc_begin h1 (note_hot_begin h1) 1); [|reflexivity].
    apply (acc_begin h1 h1 0); [|reflexivity]. constructor. }
  exists h1, h2, (note_hot_complete h2 true 9). split.
  { apply (acc_end _ (note_hot_begin (hh_open 1 msn)) 0 true 7).
    apply (acc_begin _ (hh_open 1 msn) 0); [|reflexivity]. constructor. }
  split; [vm_compute; reflexivity|]. split; [exact A|]. split; [vm_compute; reflexivity|]. split.
  { apply (acc_end h1 h2 0 true 9). exact A. }
  vm_compute. reflexivity.
Qed.
Print Assumptions C57_after_crash_refuted.

Example c57_ex : account (hh_open 0 3)
  (note_hot_complete (note_hot_begin (note_hot_begin (hh_open 0 3))) true 5) 1.
Proof.
  apply (acc_end _ _ 1). apply (acc_begin _ _ 1); [|reflexivity]. apply (acc_begin _ _ 0); [|reflexivity]. constructor.
Qed.
