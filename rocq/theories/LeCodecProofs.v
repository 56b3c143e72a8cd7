From Verif Require Import Base Bytes UleModel UleSpec LeCodecModel.
Open Scope N_scope.

Lemma Some_inj {A} (a b : A) : Some a = Some b -> a = b.
Proof. congruence. Qed.

(** * Primitive readers *)

Lemma rd_enc k n rest : n < 256 ^ N.of_nat k -> rd k (le_enc k n ++ rest) = Some (n, rest).
Proof.
  intros H. unfold rd. rewrite app_length, le_enc_length.
  replace (k + length rest <? k)%nat with false by lia.
  pose proof (firstn_app_exact (le_enc k n) rest) as E1.
  pose proof (skipn_app_exact (le_enc k n) rest) as E2.
  rewrite le_enc_length in E1, E2. rewrite E1, E2, le_val_enc_small by auto. reflexivity.
Qed.

Lemma rd1_cons b rest : rd 1 (b :: rest) = Some (b, rest).
Proof. unfold rd. cbn. f_equal. f_equal. destruct b; reflexivity. Qed.

Lemma rd_bytes_app v rest : rd_bytes (len v) (v ++ rest) = Some (v, rest).
Proof.
  unfold rd_bytes. rewrite len_app. replace (len v + len rest <? len v) with false by lia.
  unfold len. rewrite Nat2N.id, firstn_app_exact, skipn_app_exact. reflexivity.
Qed.

Lemma rd_inv k bs n bs' : rd k bs = Some (n, bs') ->
  exists pre, bs = pre ++ bs' /\ length pre = k /\ n = le_val pre.
Proof.
  unfold rd. destruct (length bs <? k)%nat eqn:E; [discriminate|].
  intros [= <- <-]. exists (firstn k bs). rewrite firstn_skipn, firstn_length.
  repeat split; auto. lia.
Qed.

Lemma rd_bytes_inv n bs v bs' : rd_bytes n bs = Some (v, bs') ->
  bs = v ++ bs' /\ len v = n.
Proof.
  unfold rd_bytes. destruct (len bs <? n) eqn:E; [discriminate|].
  intros [= <- <-]. rewrite firstn_skipn. split; auto.
  unfold len in *. rewrite firstn_length. lia.
Qed.

Lemma rd_bytes_app' n v rest : len v = n -> rd_bytes n (v ++ rest) = Some (v, rest).
Proof. intros <-. apply rd_bytes_app. Qed.

Lemma skip_app n v rest : len v = n -> skip n (v ++ rest) = Some rest.
Proof. intros H. unfold skip. rewrite rd_bytes_app' by auto. reflexivity. Qed.

Lemma skip_0 bs : skip 0 bs = Some bs.
Proof. apply (skip_app 0 []). reflexivity. Qed.

Lemma skip_rd k bs n bs' : rd k bs = Some (n, bs') -> skip (N.of_nat k) bs = Some bs'.
Proof.
  intros H. apply rd_inv in H as (pre & -> & Hl & _). apply skip_app. unfold len. lia.
Qed.

Lemma skip_inv n bs bs' : skip n bs = Some bs' -> exists v, bs = v ++ bs' /\ len v = n.
Proof.
  unfold skip. destruct (rd_bytes n bs) as [[v b]|] eqn:E; [|discriminate].
  intros [= <-]. apply rd_bytes_inv in E. eauto.
Qed.

Lemma skip_trans a b bs bs1 bs2 : skip a bs = Some bs1 -> skip b bs1 = Some bs2 ->
  skip (a + b) bs = Some bs2.
Proof.
  intros H1 H2. apply skip_inv in H1 as (v1 & -> & L1). apply skip_inv in H2 as (v2 & -> & L2).
  rewrite app_assoc. apply skip_app. rewrite len_app. lia.
Qed.

Lemma skip_split a b bs bs2 : skip (a + b) bs = Some bs2 ->
  exists bs1, skip a bs = Some bs1 /\ skip b bs1 = Some bs2.
Proof.
  intros H. apply skip_inv in H as (v & -> & L).
  rewrite <- (firstn_skipn (N.to_nat a) v), <- app_assoc.
  exists (skipn (N.to_nat a) v ++ bs2). split; apply skip_app; unfold len in *.
  - rewrite firstn_length. lia.
  - rewrite skipn_length. lia.
Qed.

Lemma skip_len n bs bs' : skip n bs = Some bs' -> len bs = n + len bs'.
Proof. intros H. apply skip_inv in H as (v & -> & L). rewrite len_app. lia. Qed.

(** * Round trip *)

Lemma rd_list_enc {A} (p : bytes -> option (A * bytes)) (enc : A -> bytes) l rest :
  (forall a, In a l -> forall r, p (enc a ++ r) = Some (a, r)) ->
  rd_list p (length l) (concat (map enc l) ++ rest) = Some (l, rest).
Proof.
  induction l as [|a l IH]; intros H; [reflexivity|].
  cbn [length rd_list map concat]. rewrite <- app_assoc, H by (left; auto).
  rewrite IH; auto. intros; apply H; right; auto.
Qed.

Lemma length_and_bit_dec r : xr_ok r -> r <> XPlace ->
  length_and_bit r < 2 ^ 32 /\
  dec_length_and_bit (length_and_bit r) =
    match r with XIns v => Some (len v) | _ => None end.
Proof.
  intros Hok Hp. destruct r as [v| |]; [|split; [cbn; lia|reflexivity]|congruence].
  cbn [xr_ok length_and_bit] in *.
  assert (E : N.lor (2 ^ 31) (len v) = len v + 1 * 2 ^ 31).
  { rewrite N.lor_comm. change (2 ^ 31) with (N.shiftl 1 31) at 1.
    apply lor_shiftl_add. auto. }
  assert (Hb : len v + 1 * 2 ^ 31 < 2 ^ 32) by lia.
  split; [rewrite E; auto|]. unfold dec_length_and_bit.
  assert (E1 : N.land (N.lor (2 ^ 31) (len v)) (2 ^ 31) = 2 ^ 31).
  { apply N.bits_inj. intros i. rewrite N.land_spec, N.lor_spec.
    destruct (N.testbit (2 ^ 31) i); [reflexivity|]. rewrite andb_false_r. reflexivity. }
  rewrite E1. change (2 ^ 31 =? 0) with false. cbv iota. f_equal.
  change (2 ^ 31 - 1) with (N.ones 31). rewrite N.land_ones, E.
  rewrite N.mod_add by lia. apply N.mod_small. auto.
Qed.

Lemma rd_lab_pack r rest : xr_ok r -> r <> XPlace ->
  rd_length_and_bit (pack_length_and_bit r ++ rest) =
  Some (match r with XIns v => Some (len v) | _ => None end, rest).
Proof.
  intros H1 H2. destruct (length_and_bit_dec r H1 H2) as [Hb Hd].
  unfold rd_length_and_bit, pack_length_and_bit. rewrite rd_enc by exact Hb.
  rewrite Hd. reflexivity.
Qed.

Definition lab_of (r : xr) : option N := match r with XIns v => Some (len v) | _ => None end.

Lemma rd_labs_pack rs rest : Forall (fun r => uxr_ok r /\ ux_xr r <> XPlace) rs ->
  rd_list rd_length_and_bit (length rs)
    (concat (map (fun r => pack_length_and_bit (ux_xr r)) rs) ++ rest)
  = Some (map (fun r => lab_of (ux_xr r)) rs, rest).
Proof.
  induction 1 as [|r rs [[Hx Hr] Hp] _ IH]; [reflexivity|].
  cbn [length rd_list map concat]. rewrite <- app_assoc, rd_lab_pack by auto.
  rewrite IH. reflexivity.
Qed.

Lemma rd_data_pack r rest : r <> XPlace ->
  rd_data (lab_of r) (pack_data r ++ rest) = Some (r, rest).
Proof.
  intros Hp. destruct r as [v| |]; [|reflexivity|congruence].
  cbn [lab_of rd_data pack_data]. rewrite rd_bytes_app. reflexivity.
Qed.

Lemma rd_datas_pack rs rest : Forall (fun r => uxr_ok r /\ ux_xr r <> XPlace) rs ->
  rd_datas (map (fun r => lab_of (ux_xr r)) rs)
    (concat (map (fun r => pack_data (ux_xr r)) rs) ++ rest)
  = Some (map ux_xr rs, rest).
Proof.
  induction 1 as [|r rs [_ Hp] _ IH]; [reflexivity|].
  cbn [rd_datas map concat]. rewrite <- app_assoc, rd_data_pack by auto.
  rewrite IH. reflexivity.
Qed.

Lemma rd_tld_pack r rest : xr_ok r ->
  rd_type_length_data (pack_type_and_length r ++ pack_data r ++ rest) = Some (r, rest).
Proof.
  intros Hr. destruct r as [v| |]; cbn [pack_type_and_length pack_data];
    rewrite <- ?app_comm_cons; cbn [app]; unfold rd_type_length_data; rewrite rd1_cons;
    [|reflexivity|reflexivity].
  change (1 =? 1) with true. cbv iota. rewrite rd_enc.
  - rewrite rd_bytes_app. reflexivity.
  - cbn [xr_ok] in Hr. change (256 ^ N.of_nat 4) with (2 ^ 32). lia.
Qed.

Lemma rd_middle_pack r rest : uxr_ok r -> rd_middle (pack_middle r ++ rest) = Some (r, rest).
Proof.
  intros [Hx Hr]. unfold rd_middle, pack_middle, pack_txnid, rd_txnid.
  rewrite <- !app_assoc, rd_enc by exact Hx.
  rewrite rd_tld_pack by auto. destruct r; reflexivity.
Qed.

Lemma rd_txnids_pack rs rest : Forall (fun r => uxr_ok r /\ ux_xr r <> XPlace) rs ->
  rd_list rd_txnid (length rs)
    (concat (map (fun r => pack_txnid (ux_xid r)) rs) ++ rest)
  = Some (map ux_xid rs, rest).
Proof.
  induction 1 as [|r rs [[Hx _] _] _ IH]; [reflexivity|].
  cbn [length rd_list map concat]. rewrite <- app_assoc.
  unfold rd_txnid at 1, pack_txnid at 1. rewrite rd_enc by exact Hx.
  rewrite IH. reflexivity.
Qed.

Lemma mk_committed_eq rs c :
  mk_committed (map ux_xid rs) (map ux_xr (rs ++ [mkUxr TXNID_NONE c])) = rs ++ [mkUxr TXNID_NONE c].
Proof.
  unfold mk_committed. induction rs as [|r rs IH]; [reflexivity|].
  cbn [map app combine fst snd]. rewrite IH. destruct r; reflexivity.
Qed.

Lemma last_default {A} (l : list A) d1 d2 : l <> [] -> last l d1 = last l d2.
Proof.
  intros H. destruct (exists_last H) as (l' & a & ->). rewrite !last_last. reflexivity.
Qed.

Lemma removelast_length {A} (l : list A) : length (removelast l) = (length l - 1)%nat.
Proof.
  induction l as [|a [|b l] IH]; auto. cbn [removelast length] in *. lia.
Qed.

Lemma Forall_removelast {A} (P : A -> Prop) l : Forall P l -> Forall P (removelast l).
Proof.
  intros H. destruct l as [|a l] using rev_ind; [constructor|].
  rewrite removelast_last. apply Forall_app in H. tauto.
Qed.

Lemma bottom_removelast (l : list uxr) : (exists l' c, l = l' ++ [mkUxr TXNID_NONE c]) ->
  exists c, l = removelast l ++ [mkUxr TXNID_NONE c].
Proof. intros (l' & c & ->). exists c. rewrite removelast_last. reflexivity. Qed.

Lemma le_pack_unpack_bytes u bs rest : ule_wf u -> N.of_nat (length (cx u)) < 2 ^ 32 ->
  le_pack_bytes u = Some bs ->
  le_unpack (bs ++ rest) = Some (ule_reload u, rest).
Proof.
  intros [Wc Wp Wb' Wi Wnp] Wnc Hpack.
  apply bottom_removelast in Wb' as [c Wb].
  destruct u as [cs ps cap]. cbn [cx px ucap] in *. unfold ule_reload. cbn [cx px].
  assert (Hn : cs <> []) by (rewrite Wb; destruct (removelast cs); discriminate).
  assert (Clean : forall c1, cs = [c1] -> ps = [] ->
     le_unpack (bs ++ rest) = Some (mkUle cs ps (unpack_cap (length cs)), rest)).
  { intros c1 -> ->. unfold le_pack_bytes in Hpack. cbn [cx px] in Hpack.
    destruct c1 as [x1 r1]. cbn [ux_xr] in Hpack.
    destruct r1 as [v| |]; try discriminate. apply Some_inj in Hpack. subst bs.
    inversion Wc as [|? ? [[_ Hv] _] _]; subst. cbn [ux_xr xr_ok] in Hv.
    rewrite <- app_comm_cons. unfold le_unpack. rewrite rd1_cons.
    change (LE_CLEAN =? LE_CLEAN) with true. cbv iota.
    rewrite <- app_assoc, rd_enc by (change (256 ^ N.of_nat 4) with (2 ^ 32); lia).
    rewrite rd_bytes_app. cbn [removelast app] in Wb. injection Wb as -> ->. reflexivity. }
  assert (Mvcc : ~ (length cs = 1%nat /\ ps = []) ->
     le_unpack (bs ++ rest) = Some (mkUle cs ps (unpack_cap (length cs)), rest)).
  2:{ destruct cs as [|c1 [|c2 cs]]; [congruence| |apply Mvcc; cbn; intros [? _]; lia].
      destruct ps; [eapply Clean; reflexivity|apply Mvcc; intros [_ ?]; discriminate]. }
  intros Hm. clear Clean.
  assert (Hbs : bs = LE_MVCC :: le_enc 4 (N.of_nat (length cs)) ++ [N.of_nat (length ps)]
            ++ match ps with [] => [] | o :: _ => pack_txnid (ux_xid o) end
            ++ concat (map (fun r => pack_txnid (ux_xid r)) (removelast cs))
            ++ (if is_nil ps then [] else pack_length_and_bit (ux_xr (last ps (hd (mkUxr 0 XDel) cs))))
            ++ concat (map (fun r => pack_length_and_bit (ux_xr r)) cs)
            ++ (if is_nil ps then [] else pack_data (ux_xr (last ps (hd (mkUxr 0 XDel) cs))))
            ++ concat (map (fun r => pack_data (ux_xr r)) cs)
            ++ pack_prov_tail ps).
  { unfold le_pack_bytes in Hpack. cbn [cx px] in Hpack.
    destruct cs as [|c1 [|c2 cs]]; [congruence| |].
    - destruct ps; [exfalso; apply Hm; auto|].
      rewrite (proj2 (Nat.ltb_lt _ _) Wnp) in Hpack. apply Some_inj in Hpack. auto.
    - rewrite (proj2 (Nat.ltb_lt _ _) Wnp) in Hpack. apply Some_inj in Hpack. auto. }
  clear Hpack. subst bs.
  assert (Hlc : length cs = S (length (removelast cs))).
  { rewrite removelast_length. destruct cs; [congruence|]. cbn. lia. }
  pose proof (Forall_removelast _ _ Wc) as Wr.
  assert (Hmk : mk_committed (map ux_xid (removelast cs)) (map ux_xr cs) = cs).
  { rewrite Wb at 2. rewrite mk_committed_eq. auto. }
  rewrite <- app_comm_cons. unfold le_unpack. rewrite rd1_cons.
  change (LE_MVCC =? LE_CLEAN) with false. change (LE_MVCC =? LE_MVCC) with true. cbv iota.
  rewrite <- !app_assoc.
  rewrite rd_enc by exact Wnc.
  replace (N.of_nat (length cs) =? 0) with false by lia. cbn [negb].
  cbn [app]. rewrite rd1_cons. rewrite Nat2N.id.
  destruct ps as [|o ps'].
  - cbn [length is_nil]. change (N.of_nat 0 =? 0) with true. cbv iota. cbn [app].
    replace (length cs - 1)%nat with (length (removelast cs)) by lia.
    rewrite rd_txnids_pack by auto.
    rewrite rd_labs_pack by auto.
    rewrite rd_datas_pack by auto.
    rewrite Hmk. reflexivity.
  - cbn [is_nil].
    replace (N.of_nat (length (o :: ps')) =? 0) with false by (cbn [length]; lia). cbv iota.
    inversion Wp as [|? ? [Ho1 Ho2] Wp']; subst.
    unfold rd_txnid at 1. unfold pack_txnid at 1. rewrite rd_enc by exact Ho1.
    replace (length cs - 1)%nat with (length (removelast cs)) by lia.
    rewrite rd_txnids_pack by auto.
    set (d := hd (mkUxr 0 XDel) cs).
    pose proof (last_default (o :: ps') d (mkUxr 0 XDel) ltac:(discriminate)) as Wi1.
    rewrite Wi1 in *. set (inner := last (o :: ps') (mkUxr 0 XDel)) in *.
    assert (Hin : uxr_ok inner).
    { rewrite Forall_forall in Wp. apply Wp.
      unfold inner. destruct (exists_last (l := o :: ps')) as (l' & a & E); [discriminate|].
      rewrite E, last_last. apply in_or_app; right; left; auto. }
    destruct Hin as [Hin1 Hin2].
    rewrite rd_lab_pack by auto. rewrite rd_labs_pack by auto.
    change (match ux_xr inner with XIns v => Some (len v) | _ => None end) with (lab_of (ux_xr inner)).
    rewrite rd_data_pack by auto. rewrite rd_datas_pack by auto. rewrite Hmk.
    destruct ps' as [|p2 ps'].
    + cbn [length]. change (N.of_nat 1 =? 1) with true. cbv iota.
      cbn [pack_prov_tail app]. destruct o; reflexivity.
    + replace (N.of_nat (length (o :: p2 :: ps')) =? 1) with false by (cbn [length]; lia).
      unfold pack_prov_tail. cbn [tl]. rewrite <- !app_assoc. rewrite rd_tld_pack by auto.
      replace (N.to_nat (N.of_nat (length (o :: p2 :: ps'))) - 2)%nat
        with (length (removelast (p2 :: ps')))
        by (rewrite removelast_length, Nat2N.id; cbn [length]; lia).
      rewrite (rd_list_enc rd_middle pack_middle).
      2:{ intros a Ha r. apply rd_middle_pack.
          pose proof (Forall_removelast _ _ Wp') as Wr'.
          rewrite Forall_forall in Wr'. auto. }
      assert (Hlast : last (o :: p2 :: ps') o = inner).
      { unfold inner. destruct (exists_last (l := o :: p2 :: ps')) as (l' & a & E); [discriminate|].
        rewrite E, !last_last. reflexivity. }
      rewrite Hlast. unfold pack_txnid, rd_txnid. rewrite rd_enc by exact Hin1.
      do 3 f_equal. rewrite (app_removelast_last (l := o :: p2 :: ps') (mkUxr 0 XDel)) by discriminate.
      fold inner. change (removelast (o :: p2 :: ps')) with (o :: removelast (p2 :: ps')).
      cbn [app]. destruct o, inner; reflexivity.
Qed.

(** ** Packed size *)

Lemma len_concat_map {A} (f : A -> bytes) l : len (concat (map f l)) = sumN (fun a => len (f a)) l.
Proof.
  induction l as [|a l IH]; [reflexivity|]. cbn [map concat sumN]. rewrite len_app, IH. reflexivity.
Qed.

Lemma sumN_const {A} k (l : list A) : sumN (fun _ => k) l = k * N.of_nat (length l).
Proof. induction l as [|a l IH]; cbn [sumN length]; lia. Qed.

Lemma sumN_ext {A} (f g : A -> N) l : (forall a, f a = g a) -> sumN f l = sumN g l.
Proof. intros H. induction l as [|a l IH]; cbn [sumN]; rewrite ?H, ?IH; auto. Qed.

Lemma len_le_enc k n : len (le_enc k n) = N.of_nat k.
Proof. unfold len. rewrite le_enc_length. reflexivity. Qed.

Lemma len_pack_data r : len (pack_data r) = xr_len r.
Proof. destruct r; reflexivity. Qed.

Lemma len_pack_middle r :
  len (pack_middle r) = 9 + (if is_ins (ux_xr r) then 4 + xr_len (ux_xr r) else 0).
Proof.
  unfold pack_middle, pack_txnid. rewrite !len_app, len_le_enc, len_pack_data.
  destruct (ux_xr r); cbn [pack_type_and_length is_ins xr_len]; unfold len; cbn [length];
    rewrite ?le_enc_length; lia.
Qed.

Lemma sumN_add {A} (f g : A -> N) l : sumN (fun a => f a + g a) l = sumN f l + sumN g l.
Proof. induction l as [|a l IH]; cbn [sumN]; lia. Qed.

Lemma le_pack_bytes_size u bs : le_pack_bytes u = Some bs -> le_memsize_from_ule u = Some (len bs).
Proof.
  destruct u as [cs ps cap]. unfold le_pack_bytes, le_memsize_from_ule. cbn [cx px ucap].
  destruct cs as [|c1 cs]; [discriminate|].
  assert (Hbase : forall inner tailb,
    len (LE_MVCC :: le_enc 4 (N.of_nat (length (c1 :: cs))) ++ [N.of_nat (length ps)]
            ++ match ps with [] => [] | o :: _ => pack_txnid (ux_xid o) end
            ++ concat (map (fun r => pack_txnid (ux_xid r)) (removelast (c1 :: cs)))
            ++ (if is_nil ps then [] else pack_length_and_bit inner)
            ++ concat (map (fun r => pack_length_and_bit (ux_xr r)) (c1 :: cs))
            ++ (if is_nil ps then [] else pack_data inner)
            ++ concat (map (fun r => pack_data (ux_xr r)) (c1 :: cs))
            ++ tailb) =
    1 + 4 + 1 + (if is_nil ps then 0 else 8 + 4 + xr_len inner)
    + 8 * N.of_nat (length cs) + 4 * N.of_nat (length (c1 :: cs))
    + sumN (fun r => xr_len (ux_xr r)) (c1 :: cs) + len tailb).
  { intros inner tailb.
    change (LE_MVCC :: le_enc 4 (N.of_nat (length (c1 :: cs))) ++ [N.of_nat (length ps)]
            ++ match ps with [] => [] | o :: _ => pack_txnid (ux_xid o) end
            ++ concat (map (fun r => pack_txnid (ux_xid r)) (removelast (c1 :: cs)))
            ++ (if is_nil ps then [] else pack_length_and_bit inner)
            ++ concat (map (fun r => pack_length_and_bit (ux_xr r)) (c1 :: cs))
            ++ (if is_nil ps then [] else pack_data inner)
            ++ concat (map (fun r => pack_data (ux_xr r)) (c1 :: cs))
            ++ tailb)
      with ([LE_MVCC] ++ le_enc 4 (N.of_nat (length (c1 :: cs))) ++ [N.of_nat (length ps)]
            ++ match ps with [] => [] | o :: _ => pack_txnid (ux_xid o) end
            ++ concat (map (fun r => pack_txnid (ux_xid r)) (removelast (c1 :: cs)))
            ++ (if is_nil ps then [] else pack_length_and_bit inner)
            ++ concat (map (fun r => pack_length_and_bit (ux_xr r)) (c1 :: cs))
            ++ (if is_nil ps then [] else pack_data inner)
            ++ concat (map (fun r => pack_data (ux_xr r)) (c1 :: cs))
            ++ tailb).
    rewrite !len_app, !len_concat_map, len_le_enc.
    rewrite (sumN_ext (fun a : uxr => len (pack_txnid (ux_xid a))) (fun _ => 8))
      by (intros; unfold pack_txnid; rewrite len_le_enc; reflexivity).
    rewrite (sumN_ext (fun a : uxr => len (pack_length_and_bit (ux_xr a))) (fun _ => 4))
      by (intros; unfold pack_length_and_bit; rewrite len_le_enc; reflexivity).
    rewrite (sumN_ext (fun a : uxr => len (pack_data (ux_xr a))) (fun r => xr_len (ux_xr r)))
      by (intros; apply len_pack_data).
    rewrite !sumN_const, removelast_length.
    change (len [LE_MVCC]) with 1. change (len [N.of_nat (length ps)]) with 1.
    change (N.of_nat 4) with 4.
    assert (E : forall k, N.of_nat (length (c1 :: k) - 1) = N.of_nat (length k : nat))
      by (intros k; f_equal; cbn [length]; lia).
    rewrite (E cs).
    destruct ps as [|o ps]; cbn [is_nil].
    - change (len []) with 0. lia.
    - unfold pack_txnid, pack_length_and_bit. rewrite !len_le_enc, len_pack_data.
      change (N.of_nat 8) with 8. change (N.of_nat 4) with 4. lia. }
  assert (Hgen : forall bs, (guard (length ps <? MAX_TRANSACTION_RECORDS)%nat;
      let inner := match ule_innermost (mkUle (c1 :: cs) ps cap) with
                   | Some i => ux_xr i | None => XPlace end in
      Some (LE_MVCC :: le_enc 4 (N.of_nat (length (c1 :: cs))) ++ [N.of_nat (length ps)]
            ++ match ps with [] => [] | o :: _ => pack_txnid (ux_xid o) end
            ++ concat (map (fun r => pack_txnid (ux_xid r)) (removelast (c1 :: cs)))
            ++ (if is_nil ps then [] else pack_length_and_bit inner)
            ++ concat (map (fun r => pack_length_and_bit (ux_xr r)) (c1 :: cs))
            ++ (if is_nil ps then [] else pack_data inner)
            ++ concat (map (fun r => pack_data (ux_xr r)) (c1 :: cs))
            ++ pack_prov_tail ps)) = Some bs ->
    match ule_innermost (mkUle (c1 :: cs) ps cap) with
      | None => None
      | Some inner =>
          if is_nil ps then Some (1 + 4 + 1 + 4 * N.of_nat (length (c1 :: cs)) +
            8 * (N.of_nat (length (c1 :: cs)) + N.of_nat (length ps) - 1)
                  + sumN (fun r => xr_len (ux_xr r)) (c1 :: cs))
          else Some (1 + 4 + 1 + 4 * N.of_nat (length (c1 :: cs)) +
            8 * (N.of_nat (length (c1 :: cs)) + N.of_nat (length ps) - 1)
                  + sumN (fun r => xr_len (ux_xr r)) (c1 :: cs)
                  + xr_len (ux_xr inner) + 4 + (N.of_nat (length ps) - 1)
                     + sumN (fun r => if is_ins (ux_xr r)
                                      then 4 + xr_len (ux_xr r) else 0)
                            (removelast ps))
      end = Some (len bs)).
  { clear bs. intros bs. destruct (length ps <? MAX_TRANSACTION_RECORDS)%nat; [|discriminate].
    cbv zeta. intros Hs. apply Some_inj in Hs. subst bs. rewrite Hbase. unfold ule_innermost. cbn [cx px].
    destruct ps as [|o ps]; cbn [is_nil].
    - f_equal. cbn [pack_prov_tail]. change (len []) with 0. cbn [length]. lia.
    - f_equal. set (I := xr_len (ux_xr (last (o :: ps) c1))).
      set (SC := sumN (fun r : uxr => xr_len (ux_xr r)) (c1 :: cs)).
      destruct ps as [|p2 ps].
      + cbn [pack_prov_tail length removelast sumN]. change (len []) with 0. lia.
      + unfold pack_prov_tail. cbn [tl]. rewrite !len_app, len_concat_map.
        unfold pack_txnid. rewrite len_le_enc.
        rewrite (sumN_ext (fun a => len (pack_middle a)) (fun r => 9 + (if is_ins (ux_xr r) then 4 + xr_len (ux_xr r) else 0)))
          by (intros; apply len_pack_middle).
        rewrite sumN_add, sumN_const, removelast_length.
        change (removelast (o :: p2 :: ps)) with (o :: removelast (p2 :: ps)).
        cbn [sumN]. set (SM := sumN _ (removelast (p2 :: ps))).
        assert (Eo : len (pack_type_and_length (ux_xr o)) + len (pack_data (ux_xr o))
          = 1 + (if is_ins (ux_xr o) then 4 + xr_len (ux_xr o) else 0)).
        { rewrite len_pack_data. destruct (ux_xr o);
            cbn [pack_type_and_length is_ins xr_len]; unfold len; cbn [length];
            rewrite ?le_enc_length; lia. }
        cbn [length]. lia. }
  destruct cs as [|c2 cs].
  - destruct ps as [|o ps].
    + destruct (ux_xr c1) as [v| |]; try discriminate.
      intros Hs. apply Some_inj in Hs. subst bs. cbn [is_ins xr_len]. f_equal.
      change (LE_CLEAN :: le_enc 4 (len v) ++ v) with ([LE_CLEAN] ++ le_enc 4 (len v) ++ v).
      rewrite !len_app, len_le_enc. change (len [LE_CLEAN]) with 1. fold (len v). lia.
    + intros H. apply Hgen in H. exact H.
  - intros H. apply Hgen in H. exact H.
Qed.

Lemma le_pack_ok u : ule_wf u -> N.of_nat (length (cx u)) < 2 ^ 32 -> has_insert u = true ->
  exists bs, le_pack u = Some (Some bs) /\ le_memsize_from_ule u = Some (len bs)
  /\ forall rest, le_unpack (bs ++ rest) = Some (ule_reload u, rest).
Proof.
  intros W Wnc Hi. pose proof W as [Wc Wp Wb' Wi Wnp].
  apply bottom_removelast in Wb' as [c Wb].
  assert (exists bs, le_pack_bytes u = Some bs) as [bs Hbs].
  { destruct u as [cs ps cap]; cbn [cx px ucap] in *. unfold le_pack_bytes. cbn [cx px].
    destruct cs as [|c1 [|c2 cs]];
      [discriminate| |rewrite (proj2 (Nat.ltb_lt _ _) Wnp); eauto].
    destruct ps as [|o ps]; [|rewrite (proj2 (Nat.ltb_lt _ _) Wnp); eauto].
    unfold has_insert in Hi. cbn in Hi.
    destruct (ux_xr c1); cbn in Hi; try discriminate. eauto. }
  exists bs. split; [|split].
  - unfold le_pack. destruct (cx u) as [|c1 cs] eqn:Ec; [discriminate|].
    rewrite Wb at 1. rewrite last_last. cbn [ux_xid]. rewrite N.eqb_refl, Hi.
    rewrite (le_pack_bytes_size _ _ Hbs), Hbs, N.eqb_refl. reflexivity.
  - apply le_pack_bytes_size; auto.
  - intros rest. apply le_pack_unpack_bytes; auto.
Qed.
