(** C14: the list of ranges a transaction keeps. *)
From Coq Require Import Permutation.
From Verif Require Import Base Bytes LtTreeModel RangeBufModel LtSysModel RangeBufProofs LtSysProofs.
Open Scope N_scope.

(** What the format can hold: keys of less than 2^16 bytes, shared key memory means
    equal keys, and an empty right key only with an empty left key. *)
Definition can_hold (g : rng) : Prop :=
  ep_size (r_l g) < 65536 /\ ep_size (r_r g) < 65536 /\
  (r_same g = true -> r_l g = r_r g) /\ (r_r g = Fin [] -> r_l g = Fin []).

(** The two end points. *)
Definition end_points (g : rng) : ep * ep := (r_l g, r_r g).

(** What a range needs at most. *)
Definition room (g : rng) : N := 8 + ep_size (r_l g) + ep_size (r_r g).

Lemma rep_rotated b gs : rb_rep b gs ->
  exists rs old new, rb_records b = Some rs /\ gs = old ++ new /\
    map end_points rs = map end_points (new ++ old) /\ (new = [] -> gs = []).
Proof.
  intros [Hst _ Har]. unfold rb_records, arena_chunks.
  destruct (a_cur (b_arena b)) as [c|].
  - destruct Har as (gss & gcur & -> & Hc & Hne & Ho & _).
    apply Forall_app in Hst as [Hst1 Hst2].
    assert (Hf : Forall (Forall storable) (gcur :: gss)).
    { constructor; auto. clear -Hst1. induction gss; constructor; cbn in Hst1;
      apply Forall_app in Hst1 as [? ?]; auto. }
    destruct (chunks_records_ok (gcur :: gss) Hf None) as (rs & Hr & Hm & Hs).
    cbn [map] in Hr. rewrite Hc, Ho. exists rs, (concat gss), gcur. split; auto. split; auto. split; auto. easy.
  - destruct Har as [_ ->]. exists [], [], []. cbn. auto.
Qed.

(** Every range appended is read back once with the same end points.  The ranges
    come back in order except that those in the last chunk of memory come first.
    (partial: see below for the ranges that are not kept and for the order.) *)
Theorem C14_read_back_partial : forall gs, Forall can_hold gs ->
  exists b rs old new, append_all rb_empty gs = Some b /\ rb_records b = Some rs /\
    gs = old ++ new /\ map end_points rs = map end_points (new ++ old).
Proof.
  intros gs H. destruct (append_all_ok gs H rb_empty [] rep_empty) as (b & E & R). cbn [app] in R.
  destruct (rep_rotated b gs R) as (rs & old & new & Er & Eg & Em & _). exists b, rs, old, new. auto.
Qed.
Print Assumptions C14_read_back_partial.

Corollary C14_read_back_each_once : forall gs, Forall can_hold gs ->
  exists b rs, append_all rb_empty gs = Some b /\ rb_records b = Some rs /\
    Permutation (map end_points rs) (map end_points gs).
Proof.
  intros gs H. destruct (C14_read_back_partial gs H) as (b & rs & old & new & E & Er & -> & Em).
  exists b, rs. split; auto. split; auto. rewrite Em, !map_app. apply Permutation_app_comm.
Qed.
Print Assumptions C14_read_back_each_once.

Lemma rec_bytes_room g : can_hold g -> len (rec_bytes g) <= room g.
Proof.
  intros _. unfold rec_bytes, rec_header, room. destruct (dbt_equals g); rewrite !len_app;
  unfold len; rewrite !le_enc_length; destruct (r_l g), (r_r g); cbn [ep_bytes ep_size length]; unfold len; lia.
Qed.

Lemma small_one_chunk gs : Forall can_hold gs -> forall b n, a_others (b_arena b) = [] ->
  (match a_cur (b_arena b) with Some c => 4096 <= c_size c | None => True end) ->
  cur_used (b_arena b) <= n -> n + fold_right N.add 0 (map room gs) <= 4096 ->
  forall b', append_all b gs = Some b' -> a_others (b_arena b') = [].
Proof.
  induction 1 as [|g gs Hg _ IH]; intros b n Ho Hc Hu Hn b' E; cbn in E.
  - injection E as <-. auto.
  - destruct (rb_append b g) as [b1|] eqn:E1; [|discriminate]. unfold rb_append in E1.
    destruct (ep_size (r_l g) <=? MAX_KEY_SIZE); [|discriminate].
    destruct (dbt_equals g || (ep_size (r_r g) <=? MAX_KEY_SIZE)); [|discriminate]. injection E1 as <-.
    pose proof (rec_bytes_room g Hg) as Hr. cbn [map fold_right] in Hn.
    apply IH with (b := Rbuf (arena_put (b_arena b) (rec_bytes g)) (b_num b + 1)) (n := n + room g); auto;
      cbn [b_arena]; unfold arena_put, cur_used in *; destruct (a_cur (b_arena b)) as [c|]; auto.
    + destruct (N.ltb_spec (c_size c) (len (c_bytes c) + len (rec_bytes g))); [lia|]. cbn. auto.
    + destruct (N.ltb_spec (c_size c) (len (c_bytes c) + len (rec_bytes g))); [lia|]. cbn. auto.
    + cbn [a_cur c_size]. unfold round_to_page. lia.
    + destruct (N.ltb_spec (c_size c) (len (c_bytes c) + len (rec_bytes g))); [lia|]. cbn [a_cur c_bytes]. rewrite len_app. lia.
    + cbn [a_cur c_bytes]. lia.
    + lia.
    + lia.
Qed.

(** A short list is read back in order. *)
Theorem C14_short_list_in_order : forall gs, Forall can_hold gs ->
  fold_right N.add 0 (map room gs) <= 4096 ->
  exists b rs, append_all rb_empty gs = Some b /\ rb_records b = Some rs /\
    map end_points rs = map end_points gs.
Proof.
  intros gs H Hs. destruct (append_all_ok gs H rb_empty [] rep_empty) as (b & E & R). cbn [app] in R.
  destruct (rep_records b gs R) as (rs & Er & _ & _ & Em). exists b, rs. split; auto. split; auto. apply Em.
  apply (small_one_chunk gs H rb_empty 0); auto; cbn; lia.
Qed.
Print Assumptions C14_short_list_in_order.

Example C14_case : Forall can_hold
  [Rng NegInf PosInf false; Rng (Fin [1]) (Fin [1]) true; Rng (Fin [1]) (Fin [2; 3]) false;
   Rng (Fin []) (Fin []) true; Rng (Fin [7]) PosInf false].
Proof.
  repeat (constructor; [split; [vm_compute; reflexivity|split; [vm_compute; reflexivity|split; cbn; try discriminate; auto]]|]).
  constructor.
Qed.

(** The full claim fails in three ways. *)

(** A range from minus infinity to the empty key is read back as one to the key
    that was read before it. *)
Theorem C14_empty_right_key_refuted :
  exists gs b rs, append_all rb_empty gs = Some b /\ rb_records b = Some rs /\
    ~ Permutation (map end_points rs) (map end_points gs).
Proof.
  exists [Rng (Fin [5]) (Fin [5]) true; Rng NegInf (Fin []) false].
  eexists _, _. split; [vm_compute; reflexivity|]. split; [vm_compute; reflexivity|].
  intros P. cbn in P. apply Permutation_cons_inv in P. apply Permutation_length_1 in P. discriminate.
Qed.
Print Assumptions C14_empty_right_key_refuted.

(** A key of exactly the allowed maximal size is not kept: its size is stored as
    0.  The record is read as a point with an empty key, and what follows is read
    from the middle of the key. *)
Definition long_key : bytes := repeat 1 (N.to_nat 65536).
Theorem C14_longest_key_refuted :
  exists g b, ep_size (r_l g) <= MAX_KEY_SIZE /\ ep_size (r_r g) <= MAX_KEY_SIZE /\
    append_all rb_empty [g] = Some b /\
    forall rs, rb_records b = Some rs -> ~ Permutation (map end_points rs) [end_points g].
Proof.
  set (g := Rng (Fin long_key) (Fin long_key) true).
  exists g, (Rbuf (arena_put arena_empty (rec_bytes g)) 1).
  assert (Hs : ep_size (Fin long_key) <=? MAX_KEY_SIZE = true) by (vm_compute; reflexivity).
  split; [apply N.leb_le; exact Hs|]. split; [apply N.leb_le; exact Hs|].
  split.
  { cbn [append_all]. unfold rb_append. change (r_l g) with (Fin long_key). rewrite Hs. reflexivity. }
  intros rs E P. apply Permutation_length in P. rewrite map_length in P.
  assert (Hl : match rb_records (Rbuf (arena_put arena_empty (rec_bytes g)) 1) with
               | Some [_] => false | _ => true end = true) by (vm_compute; reflexivity).
  rewrite E in Hl. destruct rs as [|r [|]]; cbn in P; discriminate.
Qed.
Print Assumptions C14_longest_key_refuted.

(** A list that does not fit into one chunk of memory is not read back in order. *)
Theorem C14_order_refuted :
  exists gs b rs, Forall can_hold gs /\ append_all rb_empty gs = Some b /\ rb_records b = Some rs /\
    map end_points rs <> map end_points gs.
Proof.
  set (gs := map (fun n => Rng (Fin [N.of_nat n]) (Fin [N.of_nat n]) true) (seq 0 500)).
  assert (H : Forall can_hold gs).
  { apply Forall_forall. intros g Hg. unfold gs in Hg. apply in_map_iff in Hg. destruct Hg as (n & <- & _).
    unfold can_hold. cbn. unfold len. cbn. repeat split; try lia; discriminate. }
  destruct (C14_read_back_partial gs H) as (b & rs & old & new & E & Er & _).
  exists gs, b, rs. split; auto. split; auto. split; auto. intros Em.
  assert (Q : match append_all rb_empty gs with
              | Some b => match rb_records b with Some (r :: _) => r_l r | _ => NegInf end
              | None => NegInf end = Fin [N.of_nat 455]) by (vm_compute; reflexivity).
  rewrite E, Er in Q. destruct rs as [|r rs]; [discriminate|].
  apply (f_equal (fun l => match l with (e, _) :: _ => e | _ => NegInf end)) in Em. cbn in Em.
  rewrite Q in Em. discriminate.
Qed.
Print Assumptions C14_order_refuted.
