(** The allocator keeps the holes and the allocated extents complementary. *)
From Verif Require Import Base MhsModel MhsProofs MhsHoles BlkAllocModel.
From Coq Require Import Sorting.Sorted Permutation.
Open Scope N_scope.

(** An extent: offset and size. *)
Notation ext := (N * N)%type.
Definition ext_end (e : ext) : N := fst e + snd e.
Definition in_ext (b : N) (e : ext) : Prop := fst e <= b < ext_end e.
Definition used_byte (b : N) (es : list ext) : Prop := exists e, In e es /\ in_ext b e.
Definition disj (e f : ext) : Prop := ext_end e <= fst f \/ ext_end f <= fst e.
Fixpoint pdisj (es : list ext) : Prop :=
  match es with [] => True | e :: l => Forall (disj e) l /\ pdisj l end.
Definition good (reserve al : N) (e : ext) : Prop :=
  0 < snd e /\ reserve <= fst e /\ fst e mod al = 0 /\ ext_end e <= LIM.
Fixpoint total (es : list ext) : N := match es with [] => 0 | e :: l => snd e + total l end.

Lemma disj_sym e f : disj e f -> disj f e.
Proof. unfold disj. tauto. Qed.

Lemma pdisj_perm es es' : Permutation es es' -> pdisj es -> pdisj es'.
Proof.
  induction 1 as [| x l l' P IH | x y l | ]; cbn; auto.
  - intros (H1 & H2). split; auto. eapply Permutation_Forall; eauto.
  - intros (H1 & H2 & H3). inversion H1; subst. repeat split; auto. constructor; auto using disj_sym.
Qed.
Lemma used_perm b es es' : Permutation es es' -> used_byte b es <-> used_byte b es'.
Proof.
  intros P. unfold used_byte. split; intros (e & Hi & He); exists e; split; auto.
  - eapply Permutation_in; eauto.
  - eapply Permutation_in; [symmetry|]; eauto.
Qed.
Lemma total_perm es es' : Permutation es es' -> total es = total es'.
Proof. induction 1; cbn; lia. Qed.
Lemma used_cons b e es : used_byte b (e :: es) <-> in_ext b e \/ used_byte b es.
Proof.
  unfold used_byte. split.
  - intros (x & [<-|Hi] & Hx); eauto.
  - intros [H|(x & Hi & Hx)]; [exists e|exists x]; cbn; auto.
Qed.
Lemma used_app b es fs : used_byte b (es ++ fs) <-> used_byte b es \/ used_byte b fs.
Proof.
  induction es as [|e es IH]; cbn [app]; [|rewrite !used_cons, IH; tauto].
  split; [auto|intros [(? & [] & _)|]; auto].
Qed.
Lemma used_dec b es : used_byte b es \/ ~ used_byte b es.
Proof.
  induction es as [|e l IH]; [right; intros (? & [] & _)|]. rewrite used_cons.
  destruct IH as [IH|IH]; auto.
  assert (D : in_ext b e \/ ~ in_ext b e).
  { unfold in_ext. destruct (N.le_gt_cases (fst e) b); [|right; lia].
    destruct (N.le_gt_cases (ext_end e) b); [right|left]; lia. }
  tauto.
Qed.
Lemma total_app es fs : total (es ++ fs) = total es + total fs.
Proof. induction es; cbn; lia. Qed.

Record ainv (reserve al : N) (a : alloc) (es : list ext) : Prop := {
  ai_res : a_reserve a = reserve;
  ai_al : a_align a = al;
  ai_ok : ok al (a_tree a);
  ai_sep : sep reserve (holes (a_tree a));
  ai_free : forall b, free_byte b (holes (a_tree a)) <-> reserve <= b /\ ~ used_byte b es;
  ai_good : Forall (good reserve al) es;
  ai_disj : pdisj es;
  ai_bytes : a_bytes a = u64 (reserve + total es);
  ai_blocks : a_blocks a = u64 (N.of_nat (length es)) }.

Lemma ainv_perm reserve al a es es' : Permutation es es' -> ainv reserve al a es -> ainv reserve al a es'.
Proof.
  intros P []; constructor; auto.
  - intros b. rewrite ai_free0, (used_perm b _ _ P). tauto.
  - eapply Permutation_Forall; eauto.
  - eapply pdisj_perm; eauto.
  - now rewrite <- (total_perm _ _ P).
  - now rewrite <- (Permutation_length P).
Qed.

Section Alloc.
Variables reserve al : N.
Hypothesis al512 : 512 <= al.
Hypothesis alM : al mod 512 = 0.
Hypothesis alB : al <= 2 ^ 32.
Hypothesis resB : reserve <= 2 ^ 32.
Let al2 : 2 <= al. Proof. lia. Qed.

Lemma create_internal_ok : create_internal reserve al = Some (mkA reserve al E 0 reserve).
Proof.
  unfold create_internal. destruct (N.leb_spec 512 al); [|lia]. rewrite alM. reflexivity.
Qed.

Lemma ba_create_ok : exists a, ba_create reserve al = Some a /\ ainv reserve al a [].
Proof.
  unfold ba_create. rewrite create_internal_ok. cbn [a_tree a_blocks a_bytes].
  assert (V : valid reserve (Hole reserve MAXV)).
  { unfold valid, LIM, MAXV; cbn [h_off h_size]. lia. }
  destruct (insert_ok al al2 alB reserve E reserve MAXV (ok_E al)) as (t' & E1 & O & S & F); auto.
  - split; constructor.
  - intros b _ (h & [] & _).
  - rewrite E1. eexists; split; [reflexivity|].
    constructor; cbn [a_reserve a_align a_tree a_blocks a_bytes]; auto.
    + intros b. rewrite F. unfold in_hole. cbn [h_off h_size]. split.
      * intros [(h & [] & _)|(H & _)]. split; auto. intros (e & [] & _).
      * intros (H & _). right. auto.
    + cbn. auto.
    + cbn [total]. unfold u64. rewrite N.add_0_r, N.mod_small; lia.
Qed.

(** The infinite hole. *)
Lemma used_lim es b : Forall (good reserve al) es -> used_byte b es -> reserve <= b < LIM.
Proof.
  intros G (e & Hi & He). rewrite Forall_forall in G. specialize (G _ Hi).
  unfold good, in_ext in *. lia.
Qed.

Lemma holes_last t : t <> E -> exists hs h, holes t = hs ++ [h] /\ max_node t = Some h.
Proof.
  induction t as [|c l IHl h lm rm r IHr]; [congruence|]. intros _. cbn [holes max_node].
  destruct r as [|c' l' h' lm' rm' r'].
  - exists (holes l), h. auto.
  - destruct IHr as (hs & x & E1 & E2); [discriminate|]. rewrite E1, E2.
    exists (holes l ++ h :: hs), x. split; auto. rewrite <- app_assoc. reflexivity.
Qed.

Lemma inf_hole a es : ainv reserve al a es -> exists hs L,
  holes (a_tree a) = hs ++ [Hole L MAXV] /\ ba_limit a = Some L /\ reserve <= L <= LIM /\
  forall h, In h hs -> h_size h <> MAXV /\ h_off h + h_size h < L.
Proof.
  intros I. destruct I.
  assert (F : free_byte LIM (holes (a_tree a))).
  { apply ai_free0. split; [unfold LIM; lia|]. intros U. apply used_lim in U; auto. lia. }
  destruct F as (x & Hx & Hin).
  assert (Vx : valid reserve x) by (destruct ai_sep0 as [V _]; rewrite Forall_forall in V; auto).
  assert (Mx : h_size x = MAXV).
  { destruct Hin as (H1 & H2). destruct Vx as (V1 & V2 & V3 & V4). lia. }
  destruct (holes_last (a_tree a)) as (hs & h & E1 & E2).
  { intros E0. rewrite E0 in Hx. destruct Hx. }
  assert (G : forall y, In y hs -> gap y h).
  { rewrite E1 in ai_sep0. destruct ai_sep0 as [_ S]. apply ss_app in S. destruct S as (_ & _ & S).
    intros; apply S; cbn; auto. }
  assert (x = h).
  { rewrite E1 in Hx. apply in_app_or in Hx. destruct Hx as [Hx|[->|[]]]; auto.
    destruct (G _ Hx). congruence. }
  subst x. exists hs, (h_off h). unfold ba_limit. rewrite E2, E1. repeat split; auto.
  - rewrite <- Mx. now destruct h.
  - apply Vx.
  - apply Vx.
  - now destruct (G _ H).
  - now destruct (G _ H).
Qed.

Lemma limit_ok a es : ainv reserve al a es -> exists L, ba_limit a = Some L /\ reserve <= L <= LIM /\
  (forall e, In e es -> ext_end e <= L) /\ (L = reserve \/ exists e, In e es /\ ext_end e = L).
Proof.
  intros I. destruct (inf_hole _ _ I) as (hs & L & E1 & E2 & E3 & E4). exists L. destruct I.
  assert (U : forall e, In e es -> ext_end e <= L).
  { intros e He. destruct (N.le_gt_cases (ext_end e) L) as [|C]; auto. exfalso.
    assert (Ge : good reserve al e) by (rewrite Forall_forall in ai_good0; auto).
    destruct Ge as (G1 & G2 & G3 & G4).
    assert (F : free_byte (ext_end e - 1) (holes (a_tree a))).
    { rewrite E1. exists (Hole L MAXV). split; [apply in_or_app; cbn; auto|]. split; cbn [h_off h_size]; [lia|auto]. }
    apply ai_free0 in F. destruct F as (_ & F). apply F. exists e. split; auto.
    unfold in_ext, ext_end in *. lia. }
  repeat split; auto; try lia.
  destruct (N.eq_dec L reserve) as [|Hne]; auto. right.
  assert (NF : ~ free_byte (L - 1) (holes (a_tree a))).
  { rewrite E1. intros (h & Hi & Hh). apply in_app_or in Hi. destruct Hi as [Hi|[<-|[]]].
    - destruct (E4 _ Hi). destruct Hh as (H1 & H2). lia.
    - destruct Hh as (H1 & _). cbn [h_off] in H1. lia. }
  destruct (used_dec (L - 1) es) as [(e & He & Hb)|D].
  - exists e. split; auto. specialize (U _ He). unfold in_ext in Hb. lia.
  - exfalso. apply NF, ai_free0. split; [lia|auto].
Qed.

Theorem alloc_ok a es size L : ainv reserve al a es -> 0 < size -> ba_limit a = Some L ->
  L + al + size <= LIM ->
  exists a' off, ba_alloc a size = Some (a', off) /\ ainv reserve al a' ((off, size) :: es) /\
    (forall x, reserve <= x -> x mod al = 0 -> (forall b, x <= b < x + size -> ~ used_byte b es) -> off <= x).
Proof.
  intros I Hs HL HR. destruct (inf_hole _ _ I) as (hs & L' & E1 & E2 & E3 & E4).
  assert (L' = L) by congruence. subst L'. pose proof I as I0. destruct I.
  destruct (remove_ok al al2 alB reserve (a_tree a) size (Hole L MAXV)) as
    (t' & ans & R1 & R2 & R3 & R4 & R5 & R6 & R7 & R8); auto.
  { rewrite E1. apply in_or_app; cbn; auto. }
  unfold ba_alloc. destruct (N.ltb_spec 0 size); [|lia]. rewrite ai_al0, R1, ai_res0.
  assert (Lo : reserve <= ans).
  { specialize (R6 ans). destruct (R6 ltac:(lia)) as (h & Hi & (H1 & _)).
    destruct ai_sep0 as [V _]. rewrite Forall_forall in V. destruct (V _ Hi). lia. }
  eexists _, ans. split; [reflexivity|]. split.
  - constructor; cbn [a_reserve a_align a_tree a_blocks a_bytes]; auto.
    + intros b. rewrite R8, ai_free0, used_cons. unfold in_ext, ext_end. cbn [fst snd]. tauto.
    + constructor; auto. unfold good, ext_end; cbn [fst snd]. auto.
    + cbn [pdisj]. split; auto. rewrite Forall_forall. intros e He.
      assert (Ge : good reserve al e) by (rewrite Forall_forall in ai_good0; auto).
      destruct Ge as (G1 & G2 & G3 & G4).
      unfold disj, ext_end in *. cbn [fst snd].
      destruct (N.le_gt_cases (ans + size) (fst e)) as [|C1]; auto.
      destruct (N.le_gt_cases (fst e + snd e) ans) as [|C2]; auto. exfalso.
      assert (F : free_byte (N.max ans (fst e)) (holes (a_tree a))) by (apply R6; lia).
      apply ai_free0 in F. destruct F as (_ & F). apply F. exists e. split; auto.
      unfold in_ext, ext_end. lia.
    + rewrite ai_bytes0. cbn [total snd]. unfold u64. rewrite N.add_mod_idemp_l by lia. f_equal. lia.
    + rewrite ai_blocks0. cbn [length]. unfold u64. rewrite N.add_mod_idemp_l by lia. f_equal. lia.
  - intros x Hx Hm Hu. apply R7; auto. intros b Hb. apply ai_free0. split; [lia|auto].
Qed.

Theorem free_ok a es e es' : ainv reserve al a es -> Permutation es (e :: es') ->
  exists a', ba_free a (fst e) (snd e) = Some a' /\ ainv reserve al a' es'.
Proof.
  intros I P. apply (ainv_perm _ _ _ _ _ P) in I. destruct I.
  inversion ai_good0 as [|? ? Ge G']; subst. destruct Ge as (G1 & G2 & G3 & G4).
  destruct ai_disj0 as (D1 & D2).
  destruct (insert_ok (a_align a) al2 alB (a_reserve a) (a_tree a) (fst e) (snd e)) as (t' & E1 & O & Sp & F); auto.
  - unfold valid, ext_end in *; cbn [h_off h_size]. lia.
  - intros b Hb C. apply ai_free0 in C. destruct C as (_ & C). apply C. exists e. split; [cbn; auto|].
    unfold in_hole in Hb; cbn [h_off h_size] in Hb. unfold in_ext, ext_end in *. unfold LIM, MAXV in *. lia.
  - unfold ba_free. rewrite E1. eexists; split; [reflexivity|].
    constructor; cbn [a_reserve a_align a_tree a_blocks a_bytes]; auto.
    + intros b. rewrite F, ai_free0, used_cons.
      assert (B : in_hole b (Hole (fst e) (snd e)) <-> in_ext b e).
      { unfold in_hole, in_ext, ext_end in *; cbn [h_off h_size]. unfold LIM, MAXV in *. lia. }
      assert (C : in_ext b e -> a_reserve a <= b /\ ~ used_byte b es').
      { intros Hb. split; [unfold in_ext in Hb; lia|]. intros (f & Hf & Hbf).
        rewrite Forall_forall in D1. specialize (D1 _ Hf). unfold disj, in_ext in *. lia. }
      assert (Dec : in_ext b e \/ ~ in_ext b e).
      { unfold in_ext. destruct (N.le_gt_cases (fst e) b); [|right; lia].
        destruct (N.le_gt_cases (ext_end e) b); [right|left]; lia. }
      rewrite B. tauto.
    + rewrite ai_bytes0. cbn [total]. unfold u64. unfold ext_end, LIM in *.
      replace ((a_reserve a + (snd e + total es')) mod 2 ^ 64 + 2 ^ 64 - snd e)
        with ((a_reserve a + (snd e + total es')) mod 2 ^ 64 + (2 ^ 64 - snd e)) by lia.
      rewrite N.add_mod_idemp_l by lia.
      replace (a_reserve a + (snd e + total es') + (2 ^ 64 - snd e))
        with (a_reserve a + total es' + 1 * 2 ^ 64) by lia.
      now rewrite N.mod_add by lia.
    + rewrite ai_blocks0. cbn [length]. unfold u64.
      replace (N.of_nat (S (length es')) mod 2 ^ 64 + 2 ^ 64 - 1)
        with (N.of_nat (S (length es')) mod 2 ^ 64 + (2 ^ 64 - 1)) by lia.
      rewrite N.add_mod_idemp_l by lia.
      replace (N.of_nat (S (length es')) + (2 ^ 64 - 1)) with (N.of_nat (length es') + 1 * 2 ^ 64) by lia.
      now rewrite N.mod_add by lia.
Qed.

(** CreateFromBlockPairs. *)
Definition before (e f : ext) : Prop := ext_end e <= fst f.

Lemma sort_insert_perm x l : Permutation (x :: l) (sort_insert x l).
Proof.
  induction l as [|y l IH]; cbn; auto. destruct (fst x <=? fst y); auto.
  etransitivity; [apply perm_swap|]. auto.
Qed.
Lemma sort_perm l : Permutation l (sort_pairs l).
Proof.
  induction l as [|x l IH]; cbn; auto. etransitivity; [|apply sort_insert_perm]. auto.
Qed.
Lemma sort_insert_sorted x l : StronglySorted before l -> Forall (good reserve al) l ->
  good reserve al x -> Forall (disj x) l -> StronglySorted before (sort_insert x l).
Proof.
  induction l as [|y l IH]; intros S G Gx D; cbn; [constructor; constructor|].
  inversion S as [|? ? S1 S2]; inversion G as [|? ? Gy G1]; inversion D as [|? ? Dy D1]; subst.
  assert (Px : 0 < snd x) by apply Gx. assert (Py : 0 < snd y) by apply Gy.
  destruct (N.leb_spec (fst x) (fst y)) as [H|H].
  - constructor; auto.
    assert (Bxy : before x y) by (unfold before, disj, ext_end in *; lia).
    constructor; auto. rewrite Forall_forall in *. intros z Hz. specialize (S2 _ Hz).
    unfold before, ext_end in *. lia.
  - assert (Byx : before y x) by (unfold before, disj, ext_end in *; lia).
    constructor; auto. eapply Permutation_Forall; [apply sort_insert_perm|]. constructor; auto.
Qed.
Lemma sort_sorted l : Forall (good reserve al) l -> pdisj l -> StronglySorted before (sort_pairs l).
Proof.
  induction l as [|x l IH]; intros G D; cbn; [constructor|]. inversion G; subst. destruct D.
  apply sort_insert_sorted; auto; eapply Permutation_Forall; try apply sort_perm; auto.
Qed.

Definition tinv (t : tree) (done : list ext) (lim : N) : Prop :=
  ok al t /\ sep reserve (holes t) /\
  (forall b, free_byte b (holes t) <-> reserve <= b /\ b < lim /\ ~ used_byte b done) /\
  Forall (fun e => ext_end e <= lim) done.

Lemma done_lt b done lim : Forall (fun e => ext_end e <= lim) done -> used_byte b done -> b < lim.
Proof.
  intros D (e & He & Hb). rewrite Forall_forall in D. specialize (D _ He). cbv beta in D. unfold in_ext in Hb. lia.
Qed.

Local Ltac ub b done D :=
  let W := fresh in let DL := fresh in
  pose proof (done_lt b _ _ D) as DL; destruct (used_dec b done) as [Hu|Hu];
  [specialize (DL Hu); assert (W : used_byte b done <-> True) by tauto
  |clear DL; assert (W : used_byte b done <-> False) by tauto];
  rewrite W; clear W; lia.

Lemma from_pairs_ok : forall l t done bytes e l', l = e :: l' -> StronglySorted before l ->
  Forall (good reserve al) l -> tinv t done (fst e) ->
  exists t' bytes', from_pairs reserve al l t bytes = Some (t', bytes') /\ ok al t' /\
    sep reserve (holes t') /\ (forall b, free_byte b (holes t') <-> reserve <= b /\ ~ used_byte b (done ++ l)) /\
    u64 bytes' = u64 (bytes + total l) /\ bytes' < 2 ^ 64.
Proof.
  induction l as [|e0 l IH]; intros t done bytes e l' El S G (O & Sp & F & D); [discriminate|].
  inversion El; subst e0 l'. clear El.
  inversion S as [|? ? S1 S2]; inversion G as [|? ? Ge G1]; subst.
  destruct e as [off size]. destruct Ge as (P & R & M & B). unfold ext_end in B. cbn [fst snd] in *.
  cbn [from_pairs].
  destruct (N.ltb_spec 0 size); [|lia]. destruct (N.leb_spec reserve off); [|lia].
  rewrite M. cbn [N.eqb].
  assert (U : u64 (off + size) = off + size) by (unfold u64, LIM in *; apply N.mod_small; lia).
  rewrite U.
  assert (Bs : forall x, u64 (u64 (bytes + size) + x) = u64 (bytes + (size + x))).
  { intros x. unfold u64. rewrite N.add_mod_idemp_l by lia. f_equal. lia. }
  assert (D' : forall x, off + size <= x -> Forall (fun e => ext_end e <= x) (done ++ [(off, size)])).
  { intros x Hx. apply Forall_app. split.
    - eapply Forall_impl; [|exact D]. cbv beta. intros. lia.
    - constructor; auto. }
  assert (Us : forall b, used_byte b (done ++ [(off, size)]) <-> used_byte b done \/ off <= b < off + size).
  { intros b. rewrite used_app, used_cons. unfold in_ext, ext_end; cbn [fst snd].
    assert (~ used_byte b []) by (intros (? & [] & _)). tauto. }
  destruct l as [|[next nsize] l].
  - assert (V : valid reserve (Hole (off + size) MAXV)).
    { unfold valid, MAXV, LIM in *; cbn [h_off h_size]. lia. }
    destruct (insert_ok al al2 alB reserve t (off + size) MAXV) as (t' & E1 & O' & S' & F'); auto.
    { intros b (Hb & _) C. cbn [h_off] in Hb. apply F in C. lia. }
    rewrite E1. cbn [from_pairs]. exists t', (u64 (bytes + size)). split; [reflexivity|]. split; [exact O'|].
    split; [exact S'|]. split; [|split].
    + intros b. rewrite F', F, Us. unfold in_hole. cbn [h_off h_size].
      ub b done D.
    + cbn [total]. replace (u64 (bytes + size)) with (u64 (bytes + size) + 0) at 1 by lia. apply Bs.
    + unfold u64. apply N.mod_lt. lia.
  - inversion S2 as [|? ? Bn _]; subst. unfold before, ext_end in Bn. cbn [fst snd] in Bn.
    inversion G1 as [|? ? Gn _]; subst. destruct Gn as (Pn & Rn & Mn & Ln). unfold ext_end in Ln. cbn [fst snd] in *.
    unfold olt, both_max. unfold osub.
    destruct (N.eqb_spec next MAXV) as [C|_]; [unfold MAXV, LIM in *; lia|].
    destruct (N.eqb_spec (off + size) MAXV) as [C|_]; [unfold MAXV, LIM in *; lia|]. cbn [andb negb].
    destruct (N.ltb_spec next (off + size)); [lia|]. cbn [negb].
    destruct (N.leb_spec (off + size) next); [|lia].
    assert (Fin : forall t1, tinv t1 (done ++ [(off, size)]) next ->
      exists t' bytes', from_pairs reserve al ((next, nsize) :: l) t1 (u64 (bytes + size)) = Some (t', bytes') /\ ok al t' /\
        sep reserve (holes t') /\ (forall b, free_byte b (holes t') <-> reserve <= b /\ ~ used_byte b (done ++ (off, size) :: (next, nsize) :: l)) /\
        u64 bytes' = u64 (bytes + total ((off, size) :: (next, nsize) :: l)) /\ bytes' < 2 ^ 64).
    { intros t1 T1. destruct (IH t1 (done ++ [(off, size)]) (u64 (bytes + size)) (next, nsize) l) as
        (t' & by' & A1 & A2 & A3 & A4 & A5 & A6); auto.
      exists t', by'. split; [exact A1|]. split; [exact A2|]. split; [exact A3|]. split; [|split; [|exact A6]].
      - intros b. rewrite A4, <- app_assoc. reflexivity.
      - rewrite A5. cbn [total snd]. apply Bs. }
    destruct (N.eqb_spec (next - (off + size)) 0) as [Z|Z].
    + apply Fin. split; [auto|]. split; [auto|]. split; [|apply D'; lia].
      intros b. rewrite F, Us.
      ub b done D.
    + assert (V : valid reserve (Hole (off + size) (next - (off + size)))).
      { unfold valid, MAXV, LIM in *; cbn [h_off h_size]. lia. }
      destruct (insert_ok al al2 alB reserve t (off + size) (next - (off + size))) as (t' & E1 & O' & S' & F'); auto.
      { intros b (Hb & _) C. cbn [h_off] in Hb. apply F in C. lia. }
      rewrite E1. apply Fin. split; [auto|]. split; [auto|]. split; [|apply D'; lia].
      intros b. rewrite F', F, Us. unfold in_hole. cbn [h_off h_size].
      assert (next - (off + size) <> MAXV) by (unfold MAXV, LIM in *; lia).
      ub b done D.
Qed.

Theorem create_from_pairs_ok pairs : pairs <> [] -> Forall (good reserve al) pairs -> pdisj pairs ->
  exists a, ba_create_from_pairs reserve al pairs = Some a /\ ainv reserve al a pairs.
Proof.
  intros Ne G D. unfold ba_create_from_pairs. rewrite create_internal_ok. cbn [a_tree a_bytes].
  pose proof (sort_perm pairs) as P. pose proof (sort_sorted _ G D) as S.
  assert (Gs : Forall (good reserve al) (sort_pairs pairs)) by (eapply Permutation_Forall; eauto).
  destruct (sort_pairs pairs) as [|[off size] l] eqn:Es.
  { symmetry in P. apply Permutation_nil in P. congruence. }
  assert (T : exists t, (if reserve <? off then insert al E reserve (off - reserve) else Some E) = Some t /\ tinv t [] off).
  { inversion Gs as [|? ? Ge _]; subst. destruct Ge as (G1 & G2 & G3 & G4). unfold ext_end in G4. cbn [fst snd] in *.
    destruct (N.ltb_spec reserve off) as [H|H].
    - destruct (insert_ok al al2 alB reserve E reserve (off - reserve) (ok_E al)) as (t' & E1 & O & S' & F); auto.
      + split; constructor.
      + unfold valid; cbn [h_off h_size]. lia.
      + intros b _ (h & [] & _).
      + exists t'. split; auto. split; [auto|]. split; [auto|]. split; [|constructor].
        intros b. rewrite F. unfold in_hole. cbn [h_off h_size].
        assert (off - reserve <> MAXV) by (unfold MAXV, LIM in *; lia).
        assert (Z1 : free_byte b (holes E) <-> False) by (split; [intros (? & [] & _)|tauto]).
        assert (Z2 : used_byte b [] <-> False) by (split; [intros (? & [] & _)|tauto]). rewrite Z1, Z2. lia.
    - exists E. split; auto. split; [apply ok_E|]. split; [split; constructor|]. split; [|constructor].
      intros b. split; [intros (? & [] & _)|lia]. }
  destruct T as (t & Et & Ti). rewrite Et.
  destruct (from_pairs_ok ((off, size) :: l) t [] reserve (off, size) l) as (t' & by' & E1 & O & Sp & F & B1 & B2); auto.
  rewrite E1. eexists; split; [reflexivity|].
  apply (ainv_perm reserve al _ ((off, size) :: l)); [now symmetry|].
  constructor; cbn [a_reserve a_align a_tree a_blocks a_bytes]; auto.
  - eapply pdisj_perm; eauto.
  - rewrite <- B1. unfold u64. rewrite N.mod_small; auto.
Qed.

(** The extents fit below the limit, so no sum wraps. *)
Lemma sorted_total : forall l lo, StronglySorted before l -> (forall e, In e l -> lo <= fst e) ->
  (forall e, In e l -> ext_end e <= LIM) -> lo <= LIM -> lo + total l <= LIM.
Proof.
  induction l as [|e l IH]; intros lo S H1 H2 H3; cbn [total]; [lia|].
  inversion S as [|? ? S1 S2]; subst. rewrite Forall_forall in S2.
  assert (lo <= fst e) by (apply H1; cbn; auto). assert (ext_end e <= LIM) by (apply H2; cbn; auto).
  specialize (IH (ext_end e) S1). unfold ext_end in *.
  assert (fst e + snd e + total l <= LIM); [|lia]. apply IH; auto.
  intros; apply H2; cbn; auto.
Qed.
Lemma total_bound a es : ainv reserve al a es -> reserve + total es <= LIM.
Proof.
  intros []. pose proof (sort_perm es) as P. rewrite (total_perm _ _ P).
  assert (G : Forall (good reserve al) (sort_pairs es)) by (eapply Permutation_Forall; eauto).
  rewrite Forall_forall in G. apply sorted_total.
  - now apply sort_sorted.
  - intros e He. apply G in He. apply He.
  - intros e He. apply G in He. apply He.
  - unfold LIM. lia.
Qed.
Lemma bytes_exact a es : ainv reserve al a es -> a_bytes a = reserve + total es.
Proof.
  intros I. pose proof (total_bound _ _ I). destruct I. rewrite ai_bytes0. unfold u64. apply N.mod_small.
  unfold LIM in *. lia.
Qed.
Lemma length_total es : Forall (good reserve al) es -> N.of_nat (length es) <= total es.
Proof. induction 1 as [|e es G _ IH]; cbn [length total]; [lia|]. destruct G as (G & _). lia. Qed.
Lemma blocks_exact a es : ainv reserve al a es -> a_blocks a = N.of_nat (length es).
Proof.
  intros I. pose proof (total_bound _ _ I). destruct I. rewrite ai_blocks0. unfold u64. apply N.mod_small.
  pose proof (length_total _ ai_good0). unfold LIM in *. lia.
Qed.

(** A hole that is not the last one ends at an aligned offset. *)
Lemma hole_end_aligned a es h : ainv reserve al a es -> In h (holes (a_tree a)) -> h_size h <> MAXV ->
  (h_off h + h_size h) mod al = 0.
Proof.
  intros I Hi Hs. destruct I. pose proof ai_sep0 as Sp.
  assert (V : valid reserve h) by (destruct ai_sep0 as [V _]; rewrite Forall_forall in V; auto).
  destruct V as (V1 & V2 & V3 & V4).
  assert (F1 : free_byte (h_off h + h_size h - 1) (holes (a_tree a))).
  { exists h. split; auto. unfold in_hole. lia. }
  assert (F2 : ~ free_byte (h_off h + h_size h) (holes (a_tree a))).
  { intros (x & Hx & Hin). destruct (sep_in2 _ _ h x Sp Hi Hx) as [<-|[G|G]].
    - destruct Hin. lia.
    - destruct G, Hin. lia.
    - destruct G, Hin. lia. }
  destruct (used_dec (h_off h + h_size h) es) as [(e & He & Hb)|U].
  - assert (fst e = h_off h + h_size h).
    { destruct (N.eq_dec (fst e) (h_off h + h_size h)); auto. exfalso.
      apply ai_free0 in F1. destruct F1 as (_ & F1). apply F1. exists e. split; auto. unfold in_ext in *. lia. }
    rewrite <- H. rewrite Forall_forall in ai_good0. apply ai_good0; auto.
  - exfalso. apply F2, ai_free0. split; [lia|auto].
Qed.

Lemma in_order_fold {A} (f : A -> hole -> A) t : forall acc, in_order f acc t = fold_left f (holes t) acc.
Proof.
  induction t as [|c l IHl h lm rm r IHr]; intros acc; cbn; auto.
  rewrite IHr, IHl, fold_left_app. reflexivity.
Qed.

Lemma vis_finite a es hs0 u0 : ainv reserve al a es -> (forall h, In h hs0 -> In h (holes (a_tree a)) /\ h_size h <> MAXV) ->
  u_largest u0 <= MAXV -> exists u, fold_left (vis_unused al) hs0 (Some u0) = Some u /\ u_largest u <= MAXV.
Proof.
  intros I. revert u0. induction hs0 as [|h hs0 IH]; intros u0 H HM; cbn [fold_left]; [eauto|].
  destruct (H h) as (Hi & Hs); [cbn; auto|].
  pose proof (hole_end_aligned _ _ _ I Hi Hs) as M.
  assert (V : valid reserve h).
  { destruct I. destruct ai_sep0 as [V _]. rewrite Forall_forall in V; auto. }
  destruct V as (V1 & V2 & V3 & V4).
  pose proof (align_least al al2 alB (h_off h) (h_off h + h_size h) ltac:(lia) ltac:(lia) M) as AL.
  unfold vis_unused at 2. unfold oadd.
  destruct (N.eqb_spec (h_off h) MAXV) as [C|_]; [unfold LIM, MAXV in *; lia|].
  destruct (N.eqb_spec (h_size h) MAXV) as [C|_]; [congruence|]. cbn [orb].
  destruct (N.leb_spec (h_size h) (MAXV - h_off h)); [|unfold LIM, MAXV in *; lia].
  unfold osub. change (ba_align (h_off h) al) with (align (h_off h) al).
  destruct (N.eqb_spec (align (h_off h) al) MAXV) as [C|_]; [unfold LIM, MAXV in *; lia|]. cbn [negb].
  destruct (N.eqb_spec (h_off h + h_size h) MAXV) as [C|_]; [unfold LIM, MAXV in *; lia|].
  destruct (N.leb_spec (align (h_off h) al) (h_off h + h_size h)); [|lia].
  assert (h_off h + h_size h - align (h_off h) al <= MAXV) by (unfold LIM, MAXV in *; lia).
  destruct (0 <? _); apply IH; auto; try (intros; apply H; cbn; now auto).
  cbn [u_largest]. destruct (_ <? _); auto.
Qed.

(** UnusedStatistics succeeds exactly when the report accounts for the bytes in use; the
    largest unused block it reports is always 2^64-1. *)
Theorem unused_statistics_ok a es data ckpt : ainv reserve al a es ->
  (unused_statistics a data ckpt <> None <-> reserve + total es = u64 (data + ckpt)) /\
  (forall u, unused_statistics a data ckpt = Some u -> u_largest u = 2 ^ 64 - 1).
Proof.
  intros I. unfold unused_statistics. rewrite (bytes_exact _ _ I).
  destruct (inf_hole _ _ I) as (hs & L & E1 & E2 & E3 & E4).
  assert (S : exists u, in_order (vis_unused (a_align a)) (Some (mkU 0 0 0)) (a_tree a) = Some u /\ u_largest u = 2 ^ 64 - 1).
  { rewrite in_order_fold, E1, fold_left_app. pose proof (ai_al _ _ _ _ I) as Ea. rewrite Ea.
    destruct (vis_finite _ _ hs (mkU 0 0 0) I) as (u & Eu & B).
    { intros h Hh. split; [rewrite E1; apply in_or_app; auto|]. now apply E4. }
    { cbn [u_largest]. lia. }
    rewrite Eu. cbn [fold_left]. unfold vis_unused, oadd. cbn [h_off h_size].
    rewrite N.eqb_refl, orb_true_r. unfold osub. change (ba_align L al) with (align L al).
    pose proof (align_ge al al2 alB L ltac:(lia)).
    destruct (N.eqb_spec (align L al) MAXV) as [C|_]; [unfold LIM, MAXV in *; lia|]. cbn [negb].
    rewrite N.eqb_refl. destruct (N.ltb_spec 0 MAXV) as [_|C]; [|unfold MAXV in C; lia].
    eexists; split; [reflexivity|]. cbn [u_largest].
    destruct (N.ltb_spec (u_largest u) MAXV); unfold MAXV in *; lia. }
  destruct S as (u & Eu & Hu). rewrite Eu.
  destruct (N.eqb_spec (reserve + total es) (u64 (data + ckpt))) as [H|H]; split.
  - split; auto. discriminate.
  - intros u' E'. congruence.
  - split; [congruence|]. intros; congruence.
  - discriminate.
Qed.
End Alloc.
