(** The dictionary specification, key by key, is the row specification. *)
From Verif Require Import Base Bytes LtSpec KOrd MvccModel MvccSpec DbModel DbSpec.
Open Scope nat_scope.

Section S.
Context {c : bytes -> bytes -> comparison} (ok : cmp_ok c).

Lemma keqb_same k k' : keqb c k k' = true -> forall x, keqb c k x = keqb c k' x.
Proof.
  intros Q x. destruct (keqb c k x) eqn:A, (keqb c k' x) eqn:B; auto; exfalso; apply keqb_false in A || apply keqb_false in B.
  - apply B. kord ok.
  - apply A. kord ok.
Qed.

Lemma ptrace_same k k' tr : keqb c k k' = true -> ptrace c k tr = ptrace c k' tr.
Proof.
  intros Q. induction tr as [|e tr IH]; [reflexivity|]. unfold ptrace in *. cbn [flat_map]. rewrite IH. f_equal.
  destruct e; try reflexivity. cbn [pev]. rewrite (keqb_same k k' Q). reflexivity.
Qed.

Definition at_key (k : bytes) (l : writes) : option (option val) := l k.

Lemma dsees_at ls base k : dsees ls base k = sees (map (at_key k) ls) (base k).
Proof.
  unfold sees. induction ls as [|l ls IH]; [reflexivity|]. cbn [dsees map own]. unfold at_key at 1. destruct (l k); [reflexivity|exact IH].
Qed.

Definition agrees (k : bytes) (s : dspec) (sp : rspec) : Prop :=
  sp_val sp = ds_val s k /\ (forall r, sp_levels sp r = map (at_key k) (ds_levels s r)) /\ (forall n, sp_frozen sp n = ds_frozen s n k).

Lemma upd_at {A B} (F : A -> B) (f : txnid -> A) (g : txnid -> B) r x : (forall q, g q = F (f q)) -> forall q, upd g r (F x) q = F (upd f r x q).
Proof. intros K q. unfold upd. destruct (q =? r)%N; auto. Qed.

Lemma spec_agrees tr : forall k, agrees k (dspec_of c tr) (spec_of (ptrace c k tr)).
Proof.
  induction tr as [|e tr IH]; intros k.
  - repeat split.
  - unfold ptrace in *. cbn [flat_map dspec_of]. destruct (IH k) as (V & LV & FR).
    set (s := dspec_of c tr) in *. set (sp := spec_of (flat_map (pev c k) tr)) in *.
    assert (LVU : forall r ls, agrees k (mkDspec (ds_val s) (upd (ds_levels s) r ls) (ds_frozen s)) (mkSpec (sp_val sp) (upd (sp_levels sp) r (map (at_key k) ls)) (sp_frozen sp))).
    { intros r ls. split; [exact V|]. split; [|exact FR]. cbn [sp_levels ds_levels]. apply upd_at. exact LV. }
    destruct e; cbn [pev app spec_of dspec_step].
    + apply LVU.
    + cbn [spec_step]. rewrite LV. apply (LVU r ((fun _ => None) :: ds_levels s r)).
    + assert (SEE : keqb c k k0 = true -> dsees (ds_levels s r) (ds_val s) k0 = sees (sp_levels sp r) (sp_val sp)).
      { intros Q. rewrite dsees_at. destruct (IH k0) as (V0 & LV0 & _). fold s in V0, LV0.
        pose proof (ptrace_same k k0 tr Q) as PT. unfold ptrace in PT. rewrite <- PT in V0, LV0. fold sp in V0, LV0. rewrite <- LV0, <- V0. reflexivity. }
      assert (SPLIT : keqb c k k0 = true \/ keqb c k k0 = false) by (destruct (keqb c k k0); auto).
      destruct SPLIT as [Q|Q]; rewrite Q.
      * cbn [app spec_of spec_step]. fold sp. rewrite (SEE Q). destruct (ds_levels s r) as [|l ls] eqn:DL.
        { rewrite LV, DL. cbn [map]. unfold set_top. split; [exact V|]. split; [|exact FR]. cbn [sp_levels]. intros q. unfold upd. destruct (q =? r)%N eqn:QR; [|apply LV].
          apply N.eqb_eq in QR. subst q. rewrite DL. destruct (wval w (sees [] (sp_val sp))); reflexivity. }
        destruct (wval w (sees (sp_levels sp r) (sp_val sp))) as [x|] eqn:WV.
        { pose proof (LVU r ((fun k' => if keqb c k' k0 then Some x else l k') :: ls)) as K. cbn [map] in K. unfold at_key at 1 in K. rewrite Q in K.
          rewrite (LV r), DL. cbn [map set_top]. exact K. }
        { split; [exact V|]. split; [|exact FR]. cbn [sp_levels set_top]. intros q. unfold upd. destruct (q =? r)%N eqn:QR; [|apply LV].
          apply N.eqb_eq in QR. subst q. apply LV. }
      * cbn [app spec_of]. fold sp. destruct (ds_levels s r) as [|l ls] eqn:DL; [split; [exact V|split; [exact LV|exact FR]]|].
        destruct (wval w _) as [x|]; [|split; [exact V|split; [exact LV|exact FR]]].
        split; [exact V|]. split; [|exact FR]. cbn [ds_levels]. intros q. unfold upd. destruct (q =? r)%N eqn:QR; [|apply LV].
        apply N.eqb_eq in QR. subst q. rewrite LV, DL. cbn [map]. unfold at_key at 3. rewrite Q. reflexivity.
    + cbn [spec_step]. rewrite LV. destruct (ds_levels s r) as [|a [|p ls]] eqn:DL.
      * cbn [map]. split; [exact V|]. split; [|exact FR]. cbn [sp_levels]. intros q. unfold upd. destruct (q =? r)%N eqn:QR; [|apply LV]. apply N.eqb_eq in QR. subst q. rewrite DL. reflexivity.
      * cbn [map]. split; [exact V|]. split; [|exact FR]. cbn [sp_levels]. intros q. unfold upd. destruct (q =? r)%N eqn:QR; [|apply LV]. apply N.eqb_eq in QR. subst q. rewrite DL. reflexivity.
      * pose proof (LVU r ((fun k => match a k with Some w => Some w | None => p k end) :: ls)) as K. cbn [map] in *. unfold at_key at 1 in K. unfold at_key at 1 2 3.
        destruct (a k); exact K.
    + cbn [spec_step]. rewrite LV. pose proof (LVU r (tl (ds_levels s r))) as K. destruct (ds_levels s r); exact K.
    + cbn [spec_step]. fold sp. split; [cbn [sp_val ds_val]; rewrite dsees_at, LV, V; reflexivity|]. split; [|exact FR]. cbn [sp_levels ds_levels]. apply (upd_at (map (at_key k)) _ _ r []). exact LV.
    + apply (LVU r []).
    + cbn [spec_step]. fold sp. split; [exact V|]. split; [exact LV|]. cbn [sp_frozen ds_frozen]. intros q. unfold upd. destruct (q =? s0)%N; [exact V|apply FR].
Qed.
End S.
