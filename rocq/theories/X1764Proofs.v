From Verif Require Import Base Bytes X1764Model X1764Spec.
Open Scope N_scope.

Lemma w64_idem x : w64 (w64 x) = w64 x.
Proof. unfold w64. apply N.mod_mod. lia. Qed.

Lemma mul17add_w64 c x : mul17add (w64 c) x = mul17add c x.
Proof.
  unfold mul17add, w64.
  rewrite <- (N.add_mod_idemp_l (c mod 2 ^ 64 * 17)) by lia.
  rewrite N.mul_mod_idemp_l by lia.
  rewrite N.add_mod_idemp_l by lia. reflexivity.
Qed.

Lemma pow256 k : 256 ^ k = 2 ^ (8 * k).
Proof. rewrite N.pow_mul_r. reflexivity. Qed.

Lemma len_nil : len [] = 0. Proof. reflexivity. Qed.
Lemma len_cons b l : len (b :: l) = 1 + len l.
Proof. unfold len. cbn [length]. lia. Qed.

(** Appending bytes to a partially filled word. *)
Lemma lor_append rest bs :
  bytes_ok rest -> bytes_ok bs -> len rest + len bs <= 8 ->
  N.lor (le_val rest) (w64 (N.shiftl (le_val bs) (8 * len rest)))
  = le_val (rest ++ bs).
Proof.
  intros Hr Hb Hl.
  pose proof (le_val_bound _ Hr) as Br. pose proof (le_val_bound _ Hb) as Bb.
  unfold w64. rewrite N.mod_small.
  - rewrite lor_shiftl_add by (rewrite <- pow256; auto).
    rewrite le_val_app, pow256. lia.
  - rewrite N.shiftl_mul_pow2, <- pow256.
    apply N.lt_le_trans with (256 ^ (len bs + len rest)).
    + rewrite N.pow_add_r. apply N.mul_lt_mono_pos_r; auto. lia.
    + change (2 ^ 64) with (256 ^ 8). apply N.pow_le_mono_r; lia.
Qed.

(** Appending more bytes than fit: the low part fills the word, the rest is
    what the right shift yields. *)
Lemma lor_append_overflow rest a b :
  bytes_ok rest -> bytes_ok a -> bytes_ok b -> len rest + len a = 8 ->
  N.lor (le_val rest) (w64 (N.shiftl (le_val (a ++ b)) (8 * len rest)))
  = le_val (rest ++ a).
Proof.
  intros Hr Ha Hb Hl.
  rewrite <- (lor_append rest a) by (auto; lia). f_equal.
  unfold w64. rewrite !N.shiftl_mul_pow2, <- !pow256.
  rewrite le_val_app.
  replace ((le_val a + 256 ^ len a * le_val b) * 256 ^ len rest)
    with (le_val a * 256 ^ len rest + le_val b * (256 ^ 8)).
  2:{ replace 8 with (len rest + len a) by auto. rewrite N.pow_add_r. lia. }
  change (256 ^ 8) with (2 ^ 64). apply N.mod_add. lia.
Qed.

Lemma shiftr_high a b k :
  bytes_ok a -> 8 * len a = k -> N.shiftr (le_val (a ++ b)) k = le_val b.
Proof.
  intros Ha <-. rewrite N.shiftr_div_pow2, <- pow256, le_val_app.
  rewrite (N.mul_comm (256 ^ len a)), N.div_add.
  - rewrite N.div_small; [reflexivity|]. apply le_val_bound; auto.
  - apply N.pow_nonzero; lia.
Qed.

Lemma or_bytes_app rest bs :
  bytes_ok rest -> bytes_ok bs -> len rest + len bs <= 8 ->
  or_bytes (le_val rest) (len rest) bs = le_val (rest ++ bs).
Proof.
  revert rest. induction bs as [|b bs IH]; intros rest Hr Hb Hl.
  - cbn. rewrite app_nil_r. reflexivity.
  - rewrite len_cons in Hl. apply bytes_ok_cons in Hb as [Hb1 Hb2].
    cbn [or_bytes].
    replace (w64 (N.shiftl b (8 * len rest)))
      with (w64 (N.shiftl (le_val [b]) (8 * len rest)))
      by (cbn [le_val]; rewrite N.mul_0_r, N.add_0_r; reflexivity).
    rewrite lor_append; auto.
    2:{ constructor; auto. } 2:{ rewrite len_cons, len_nil. lia. }
    replace (len rest + 1) with (len (rest ++ [b]))
      by (rewrite len_app, len_cons, len_nil; lia).
    rewrite IH; auto.
    + rewrite <- app_assoc. reflexivity.
    + apply bytes_ok_app. split; auto. constructor; auto.
    + rewrite len_app, len_cons, len_nil. lia.
Qed.

Lemma or_bytes_0 bs : bytes_ok bs -> len bs <= 8 -> or_bytes 0 0 bs = le_val bs.
Proof.
  intros. pose proof (or_bytes_app [] bs) as E. cbn [le_val app] in E.
  rewrite len_nil in E. apply E; auto. constructor.
Qed.

(** Induction 8 bytes at a time. *)
Lemma bytes_ind8 (P : list N -> Prop) :
  (forall bs : list N, len bs < 8 -> P bs) ->
  (forall g rest : list N, length g = 8%nat -> P rest -> P (g ++ rest)) ->
  forall bs : list N, P bs.
Proof.
  intros Hs Hg bs.
  remember (length bs) as n eqn:En. revert bs En.
  induction n as [n IH] using lt_wf_ind. intros bs En.
  destruct (N.lt_ge_cases (len bs) 8) as [Hl|Hl]; [auto|].
  rewrite <- (firstn_skipn 8 bs). apply Hg.
  - rewrite firstn_length. unfold len in Hl. lia.
  - apply (IH (length (skipn 8 bs))); auto. rewrite skipn_length.
    unfold len in Hl. lia.
Qed.

Lemma list8 {A} (g : list A) : length g = 8%nat ->
  exists a b c d e f h i, g = [a; b; c; d; e; f; h; i].
Proof.
  intros H. do 8 (destruct g as [|? g]; [discriminate H|]).
  destruct g; [|discriminate H]. repeat eexists.
Qed.

Ltac short_list bs H :=
  do 8 (destruct bs as [|? bs]; [reflexivity|]);
  exfalso; unfold len in H; cbn [length] in H; lia.

Lemma words_loop_short c bs : len bs < 8 -> words_loop c bs = (c, bs).
Proof. intros H. short_list bs H. Qed.

Lemma words_loop_step c g rest : length g = 8%nat ->
  words_loop c (g ++ rest) = words_loop (mul17add c (le_val g)) rest.
Proof.
  intros H. apply list8 in H as (?&?&?&?&?&?&?&?&->). reflexivity.
Qed.

(** Full words followed by a short tail. *)
Fixpoint full_words (c : N) (gs : list bytes) : N :=
  match gs with [] => c | g :: gs' => full_words (mul17add c (le_val g)) gs' end.

Definition all8 (gs : list bytes) : Prop := Forall (fun g => length g = 8%nat) gs.

Lemma split8 bs : exists gs tail, bs = concat gs ++ tail /\ all8 gs /\ len tail < 8.
Proof.
  revert bs. apply bytes_ind8;
    [intros bs H|intros g rest Hg (gs & tail & -> & Hgs & Ht)].
  - exists [], bs. repeat split; auto. constructor.
  - exists (g :: gs), tail. cbn [concat]. rewrite app_assoc. repeat split; auto.
    constructor; auto.
Qed.

Lemma words_loop_full gs tail c : all8 gs -> len tail < 8 ->
  words_loop c (concat gs ++ tail) = (full_words c gs, tail).
Proof.
  revert c. induction gs as [|g gs IH]; intros c Hg Ht.
  - cbn [concat app full_words]. apply words_loop_short; auto.
  - inversion Hg as [|? ? H1 H2]; subst. cbn [concat full_words].
    rewrite <- app_assoc, words_loop_step by auto. apply IH; auto.
Qed.

Lemma all8_app a b : all8 (a ++ b) <-> all8 a /\ all8 b.
Proof. unfold all8. rewrite Forall_app. tauto. Qed.

Lemma full_words_app c a b : full_words c (a ++ b) = full_words (full_words c a) b.
Proof. revert c; induction a; intros; cbn; auto. Qed.

(** The value of a checksum in progress: full words and a tail. *)
Definition finish_val (gs : list bytes) (tail : bytes) : N :=
  fold32 (if is_nil tail then full_words 0 gs
          else mul17add (full_words 0 gs) (le_val tail)).

(** ** Specification *)

Lemma groups8_full gs tail : all8 gs -> len tail < 8 ->
  groups8 (concat gs ++ tail) = gs ++ (if is_nil tail then [] else [tail]).
Proof.
  induction gs as [|g gs IH]; intros Hg Ht.
  - cbn [concat app]. short_list tail Ht.
  - inversion Hg as [|? ? H1 H2]; subst. cbn [concat].
    pose proof H1 as H1'. apply list8 in H1' as (?&?&?&?&?&?&?&?&->).
    cbn [app groups8 concat]. f_equal. apply IH; auto.
Qed.

Lemma full_words_poly gs c :
  full_words (w64 c) gs = w64 (fold_left (fun c w => c * 17 + w) (map le_val gs) c).
Proof.
  revert c. induction gs as [|g gs IH]; intros c; [reflexivity|].
  cbn [full_words map fold_left]. rewrite mul17add_w64.
  unfold mul17add. rewrite IH. reflexivity.
Qed.

Lemma w64_bound x : w64 x < 2 ^ 64.
Proof. apply N.mod_lt. lia. Qed.

Lemma fold32_spec s : s < 2 ^ 64 ->
  fold32 s = 2 ^ 32 - 1 - N.lxor (s mod 2 ^ 32) (s / 2 ^ 32).
Proof.
  intros Hs. unfold fold32.
  change (2 ^ 32 - 1) with (N.ones 32). rewrite N.land_ones, N.shiftr_div_pow2.
  set (a := s mod 2 ^ 32). set (b := s / 2 ^ 32).
  assert (Ha : a < 2 ^ 32) by (apply N.mod_lt; lia).
  assert (Hb : b < 2 ^ 32) by (apply N.div_lt_upper_bound; lia).
  assert (Hx : N.lxor a b < 2 ^ 32).
  { destruct (N.eq_dec (N.lxor a b) 0) as [->|Hz]; [lia|].
    apply N.log2_lt_pow2; [lia|].
    apply N.le_lt_trans with (N.max (N.log2 a) (N.log2 b)).
    - apply N.log2_lxor.
    - apply N.max_lub_lt.
      + destruct (N.eq_dec a 0) as [->|]; [reflexivity|]. apply N.log2_lt_pow2; lia.
      + destruct (N.eq_dec b 0) as [->|]; [reflexivity|]. apply N.log2_lt_pow2; lia. }
  rewrite N.mod_small by auto.
  set (x := N.lxor a b) in *.
  assert (E : N.lxor (N.ones 32) x + x = N.ones 32).
  { rewrite N.add_nocarry_lxor.
    - rewrite N.lxor_assoc, N.lxor_nilpotent, N.lxor_0_r. reflexivity.
    - apply N.bits_inj. intros i. rewrite N.land_spec, N.lxor_spec, N.bits_0.
      destruct (N.lt_ge_cases i 32) as [Hi|Hi].
      + rewrite N.ones_spec_low by auto. destruct (N.testbit x i); reflexivity.
      + replace (N.testbit x i) with false.
        2:{ symmetry. destruct (N.eq_dec x 0) as [->|]; [apply N.bits_0|].
            apply N.bits_above_log2. apply N.lt_le_trans with 32; auto.
            apply N.log2_lt_pow2; lia. }
        apply andb_false_r. }
  change (N.ones 32) with (2 ^ 32 - 1) in *. lia.
Qed.

Lemma finish_val_spec gs tail : all8 gs -> len tail < 8 ->
  finish_val gs tail = checksum_spec (concat gs ++ tail).
Proof.
  intros Hg Ht. unfold finish_val, checksum_spec.
  rewrite groups8_full by auto. unfold poly17.
  rewrite map_app, fold_left_app.
  pose proof (full_words_poly gs 0) as E. change (w64 0) with 0 in E.
  destruct tail as [|t tl]; cbn [is_nil map fold_left].
  - rewrite E. apply fold32_spec, w64_bound.
  - rewrite E, mul17add_w64. unfold mul17add. apply fold32_spec, w64_bound.
Qed.

(** ** One-shot versions *)

Lemma simple_finish gs tail : all8 gs -> bytes_ok tail -> len tail < 8 ->
  x1764_memory_simple (concat gs ++ tail) = finish_val gs tail.
Proof.
  intros Hg Hb Ht. unfold x1764_memory_simple, finish_val.
  rewrite words_loop_full by auto.
  rewrite or_bytes_0 by (auto; lia). reflexivity.
Qed.

Lemma x1764_memory_simple_ok bs : bytes_ok bs ->
  x1764_memory_simple bs = checksum_spec bs.
Proof.
  intros Hb. destruct (split8 bs) as (gs & tail & -> & Hg & Ht).
  apply bytes_ok_app in Hb as [_ Hb].
  rewrite simple_finish, finish_val_spec; auto.
Qed.

Lemma list32 {A} (l : list A) : (32 <= length l)%nat ->
  exists a b c d rest, l = a ++ b ++ c ++ d ++ rest
  /\ length a = 8%nat /\ length b = 8%nat /\ length c = 8%nat /\ length d = 8%nat.
Proof.
  intros H.
  exists (firstn 8 l), (firstn 8 (skipn 8 l)), (firstn 8 (skipn 8 (skipn 8 l))),
    (firstn 8 (skipn 8 (skipn 8 (skipn 8 l)))), (skipn 8 (skipn 8 (skipn 8 (skipn 8 l)))).
  rewrite !firstn_skipn. repeat split;
    repeat (rewrite firstn_length || rewrite skipn_length); lia.
Qed.

Lemma words4_loop_step a b c d ga gb gc gd rest :
  length ga = 8%nat -> length gb = 8%nat -> length gc = 8%nat -> length gd = 8%nat ->
  words4_loop a b c d (ga ++ gb ++ gc ++ gd ++ rest) =
  words4_loop (mul17_4add a (le_val ga)) (mul17_4add b (le_val gb))
              (mul17_4add c (le_val gc)) (mul17_4add d (le_val gd)) rest.
Proof.
  intros H1 H2 H3 H4.
  apply list8 in H1 as (?&?&?&?&?&?&?&?&->).
  apply list8 in H2 as (?&?&?&?&?&?&?&?&->).
  apply list8 in H3 as (?&?&?&?&?&?&?&?&->).
  apply list8 in H4 as (?&?&?&?&?&?&?&?&->). reflexivity.
Qed.

Definition comb4 (s : N * N * N * N) : N :=
  let '(a, b, c, d) := s in w64 (a * 17 * 17 * 17 + b * 17 * 17 + c * 17 + d).

Lemma w64_eq x y : x mod 2 ^ 64 = y mod 2 ^ 64 -> w64 x = w64 y.
Proof. auto. Qed.

Lemma w64_lin a x k : exists q, (w64 a) * k + x + q * 2 ^ 64 = a * k + x.
Proof.
  exists (a / 2 ^ 64 * k). unfold w64.
  pose proof (N.div_mod a (2 ^ 64)). nia.
Qed.

Lemma w64_shift x q : w64 (x + q * 2 ^ 64) = w64 x.
Proof. unfold w64. apply N.mod_add. lia. Qed.

Lemma comb4_step a b c d wa wb wc wd :
  comb4 (mul17_4add a wa, mul17_4add b wb, mul17_4add c wc, mul17_4add d wd) =
  mul17add (mul17add (mul17add (mul17add (comb4 (a, b, c, d)) wa) wb) wc) wd.
Proof.
  unfold comb4, mul17_4add. rewrite mul17add_w64. unfold mul17add.
  set (A := a * (17 * 17 * 17 * 17) + wa). set (B := b * (17 * 17 * 17 * 17) + wb).
  set (C := c * (17 * 17 * 17 * 17) + wc). set (D := d * (17 * 17 * 17 * 17) + wd).
  transitivity (w64 (A * 17 * 17 * 17 + B * 17 * 17 + C * 17 + D)).
  - unfold w64.
    pose proof (N.div_mod A (2 ^ 64)). pose proof (N.div_mod B (2 ^ 64)).
    pose proof (N.div_mod C (2 ^ 64)). pose proof (N.div_mod D (2 ^ 64)).
    rewrite <- (N.mod_add
      (A mod 2 ^ 64 * 17 * 17 * 17 + B mod 2 ^ 64 * 17 * 17 + C mod 2 ^ 64 * 17 + D mod 2 ^ 64)
      (A / 2 ^ 64 * 17 * 17 * 17 + B / 2 ^ 64 * 17 * 17 + C / 2 ^ 64 * 17 + D / 2 ^ 64)) by lia.
    f_equal. lia.
  - set (S := a * 17 * 17 * 17 + b * 17 * 17 + c * 17 + d).
    assert (E : forall c x, w64 (w64 c * 17 + x) = w64 (c * 17 + x)).
    { intros. apply mul17add_w64. }
    rewrite (E (S * 17 + wa)), (E ((S * 17 + wa) * 17 + wb)), E. f_equal.
    unfold A, B, C, D, S. lia.
Qed.

Lemma words4_then_words bs : forall a b c d,
  (let '(s, rest) := words4_loop a b c d bs in words_loop (comb4 s) rest)
  = words_loop (comb4 (a, b, c, d)) bs.
Proof.
  remember (length bs) as n eqn:En. revert bs En.
  induction n as [n IH] using lt_wf_ind. intros bs En a b c d.
  destruct (le_lt_dec 32 (length bs)) as [Hl|Hl].
  - destruct (list32 bs Hl) as (ga & gb & gc & gd & rest & -> & H1 & H2 & H3 & H4).
    rewrite words4_loop_step by auto.
    rewrite !words_loop_step by auto.
    rewrite <- comb4_step. apply (IH (length rest)); auto.
    rewrite En, !app_length. lia.
  - assert (E : words4_loop a b c d bs = ((a, b, c, d), bs)).
    { do 32 (destruct bs as [|? bs]; [reflexivity|]).
      exfalso. cbn [length] in Hl. lia. }
    rewrite E. reflexivity.
Qed.

Lemma x1764_memory_simple_eq bs : x1764_memory bs = x1764_memory_simple bs.
Proof.
  unfold x1764_memory, x1764_memory_simple.
  pose proof (words4_then_words bs 0 0 0 0) as E.
  change (comb4 (0, 0, 0, 0)) with 0 in E.
  destruct (words4_loop 0 0 0 0 bs) as [[[[a b] c] d] rest].
  cbn [comb4] in E. rewrite E. reflexivity.
Qed.

(** ** Incremental version *)

(** The state after feeding [s]. *)
Definition rep (l : x1764) (s : bytes) : Prop :=
  exists gs tail, s = concat gs ++ tail /\ all8 gs /\ len tail < 8 /\
    bytes_ok tail /\
    x_sum l = full_words 0 gs /\ x_input l = le_val tail /\ x_n l = len tail.

Lemma rep_init : rep x1764_init [].
Proof.
  exists [], []. repeat split; try constructor.
Qed.

Lemma rep_finish l s : rep l s -> x1764_finish l = checksum_spec s.
Proof.
  intros (gs & tail & -> & Hg & Ht & Hb & Hs & Hi & Hn).
  rewrite <- finish_val_spec by auto. unfold x1764_finish, finish_val.
  rewrite Hs, Hi, Hn. destruct tail as [|t tl]; [reflexivity|].
  rewrite len_cons. replace (0 <? 1 + len tl) with true by lia. reflexivity.
Qed.

Lemma full_words_snoc gs g :
  mul17add (full_words 0 gs) (le_val g) = full_words 0 (gs ++ [g]).
Proof. rewrite full_words_app. reflexivity. Qed.

Lemma concat_snoc {A} (gs : list (list A)) g : concat (gs ++ [g]) = concat gs ++ g.
Proof. rewrite concat_app. cbn. rewrite app_nil_r. reflexivity. Qed.

Lemma all8_snoc gs g : all8 gs -> len g = 8 -> all8 (gs ++ [g]).
Proof.
  intros. apply all8_app. split; auto. constructor; [|constructor].
  unfold len in *. lia.
Qed.

Lemma add_aligned_rep sum gs bs :
  all8 gs -> bytes_ok bs -> sum = full_words 0 gs ->
  rep (add_aligned sum bs) (concat gs ++ bs).
Proof.
  intros Hg Hb ->. destruct (split8 bs) as (gs2 & tail & -> & Hg2 & Ht).
  apply bytes_ok_app in Hb as [_ Hb].
  unfold add_aligned. rewrite words_loop_full by auto.
  exists (gs ++ gs2), tail. rewrite concat_app, app_assoc.
  repeat split; auto.
  - apply all8_app; auto.
  - cbn [x_sum]. rewrite full_words_app. reflexivity.
  - cbn [x_input]. apply or_bytes_0; auto; lia.
Qed.

Lemma add_words_loop_ok bs : forall gs tail,
  all8 gs -> bytes_ok tail -> 0 < len tail < 8 -> bytes_ok bs ->
  exists gs' tail' rest,
    add_words_loop (len tail) (full_words 0 gs) (le_val tail) bs
    = (full_words 0 gs', le_val tail', rest) /\
    concat gs' ++ tail' ++ rest = concat gs ++ tail ++ bs /\
    all8 gs' /\ bytes_ok tail' /\ len tail' = len tail /\ bytes_ok rest /\ len rest < 8.
Proof.
  pattern bs. revert bs. apply bytes_ind8;
    [intros bs Hs|intros g rest Hg IH]; intros gs tail Hgs Ht Hl Hb.
  - exists gs, tail, bs. split.
    { do 8 (destruct bs as [|? bs]; [reflexivity|]).
      exfalso. unfold len in Hs. cbn [length] in Hs. lia. }
    repeat split; auto.
  - apply bytes_ok_app in Hb as [Hb1 Hb2].
    set (k := N.to_nat (8 - len tail)).
    pose proof (firstn_skipn k g) as Eg.
    set (a := firstn k g) in *. set (b := skipn k g) in *.
    assert (La : len a = 8 - len tail).
    { unfold a, len. rewrite firstn_length. unfold len in *. lia. }
    assert (Lb : len b = len tail).
    { unfold b, len. rewrite skipn_length. unfold len in *. lia. }
    assert (Ha : bytes_ok a) by (apply bytes_ok_firstn; auto).
    assert (Hbb : bytes_ok b) by (apply bytes_ok_skipn; auto).
    assert (Ew : add_words_loop (len tail) (full_words 0 gs) (le_val tail) (g ++ rest)
      = add_words_loop (len b) (full_words 0 (gs ++ [tail ++ a])) (le_val b) rest).
    { rewrite <- full_words_snoc.
      replace (le_val (tail ++ a)) with
        (N.lor (le_val tail) (w64 (N.shiftl (le_val g) (8 * len tail)))).
      2:{ rewrite <- Eg. apply lor_append_overflow; auto. lia. }
      replace (le_val b) with (N.shiftr (le_val g) (8 * (8 - len tail))).
      2:{ rewrite <- Eg. apply shiftr_high; auto. lia. }
      rewrite Lb. pose proof Hg as Hg'.
      apply list8 in Hg' as (?&?&?&?&?&?&?&?&->). reflexivity. }
    destruct (IH (gs ++ [tail ++ a]) b) as (gs' & tail' & rest' & E1 & E2 & E3 & E4 & E5 & E6 & E7);
      auto.
    + apply all8_snoc; auto. rewrite len_app. lia.
    + lia.
    + exists gs', tail', rest'. rewrite Ew. repeat split; auto; try lia.
      rewrite E2, concat_snoc, <- Eg, <- !app_assoc. reflexivity.
Qed.

Lemma add_bytes_loop_ok bs : forall tail,
  bytes_ok tail -> len tail <= 8 -> bytes_ok bs ->
  exists tail' rest,
    add_bytes_loop (len tail) (le_val tail) bs = (len tail', le_val tail', rest) /\
    tail' ++ rest = tail ++ bs /\ bytes_ok tail' /\ bytes_ok rest /\
    (len tail' = 8 \/ (len tail' < 8 /\ rest = [])).
Proof.
  induction bs as [|b bs IH]; intros tail Ht Hl Hb.
  - exists tail, []. cbn [add_bytes_loop]. repeat split; auto.
    destruct (N.eq_dec (len tail) 8); [left|right]; auto. split; auto. lia.
  - apply bytes_ok_cons in Hb as [Hb1 Hb2]. cbn [add_bytes_loop].
    destruct (N.ltb_spec (len tail) 8) as [H8|H8].
    + assert (Hok : bytes_ok [b]) by (constructor; auto; constructor).
      replace (N.lor (le_val tail) (w64 (N.shiftl b (8 * len tail))))
        with (le_val (tail ++ [b])).
      2:{ rewrite <- lor_append; auto.
          - do 3 f_equal. cbn [le_val]. lia.
          - rewrite len_cons, len_nil. lia. }
      replace (len tail + 1) with (len (tail ++ [b]))
        by (rewrite len_app, len_cons, len_nil; lia).
      destruct (IH (tail ++ [b])) as (t' & r' & E1 & E2 & E3 & E4 & E5); auto.
      * apply bytes_ok_app; auto.
      * rewrite len_app, len_cons, len_nil. lia.
      * exists t', r'. rewrite <- app_assoc in E2. repeat split; auto.
    + exists tail, (b :: bs). repeat split; auto.
      * constructor; auto.
      * left. lia.
Qed.

Lemma rep_add l s bs : rep l s -> bytes_ok bs -> rep (x1764_add l bs) (s ++ bs).
Proof.
  intros (gs & tail & -> & Hg & Ht & Hb & Hs & Hi & Hn) Hbs.
  destruct l as [sum input n]. cbn [x_sum x_input x_n] in *. subst sum input n.
  assert (General :
    rep (if len tail =? 0 then add_aligned (full_words 0 gs) bs
      else
        let '(sum, input, bs) := add_words_loop (len tail) (full_words 0 gs) (le_val tail) bs in
        let '(sum, input, n, bs) :=
          match bs with
          | b0 :: b1 :: b2 :: b3 :: rest =>
              let thisv := le_val [b0; b1; b2; b3] in
              if len tail <? 4 then
                (sum, N.lor input (w64 (N.shiftl thisv (8 * len tail))), len tail + 4, rest)
              else
                let input := N.lor input (w64 (N.shiftl thisv (8 * len tail))) in
                (mul17add sum input, N.shiftr thisv (8 * (8 - len tail)), len tail - 4, rest)
          | _ => (sum, input, len tail, bs)
          end in
        let '(n, input, bs) := add_bytes_loop n input bs in
        if n <? 8 then mkX sum input n
        else add_aligned (mul17add sum input) bs) ((concat gs ++ tail) ++ bs)).
  { destruct (N.eqb_spec (len tail) 0) as [Hz|Hz].
    { destruct tail; [|rewrite len_cons in Hz; lia]. rewrite app_nil_r.
      apply add_aligned_rep; auto. }
    destruct (add_words_loop_ok bs gs tail) as (gs1 & t1 & r1 & E1 & E2 & E3 & E4 & E5 & E6 & E7);
      auto; [lia|].
    rewrite E1. rewrite <- app_assoc, <- E2.
    assert (Mid : exists gs2 t2 r2,
      match r1 with
      | b0 :: b1 :: b2 :: b3 :: rest =>
          let thisv := le_val [b0; b1; b2; b3] in
          if len tail <? 4 then
            (full_words 0 gs1, N.lor (le_val t1) (w64 (N.shiftl thisv (8 * len tail))),
              len tail + 4, rest)
          else
            let input := N.lor (le_val t1) (w64 (N.shiftl thisv (8 * len tail))) in
            (mul17add (full_words 0 gs1) input, N.shiftr thisv (8 * (8 - len tail)),
              len tail - 4, rest)
      | _ => (full_words 0 gs1, le_val t1, len tail, r1)
      end = (full_words 0 gs2, le_val t2, len t2, r2) /\
      concat gs2 ++ t2 ++ r2 = concat gs1 ++ t1 ++ r1 /\
      all8 gs2 /\ bytes_ok t2 /\ len t2 < 8 /\ bytes_ok r2).
    { destruct r1 as [|b0 [|b1 [|b2 [|b3 rest]]]];
        try (exists gs1, t1; eexists; rewrite <- E5;
             split; [reflexivity|]; repeat split; auto; lia).
      cbn zeta.
      change (b0 :: b1 :: b2 :: b3 :: rest) with ([b0; b1; b2; b3] ++ rest) in *.
      apply bytes_ok_app in E6 as [E6a E6b].
      set (q := [b0; b1; b2; b3]) in *.
      assert (Lq : len q = 4) by reflexivity.
      destruct (N.ltb_spec (len tail) 4) as [H4|H4].
      - exists gs1, (t1 ++ q), rest. rewrite <- E5.
        rewrite lor_append by (auto; lia).
        split; [rewrite len_app, Lq; reflexivity|].
        rewrite <- app_assoc. repeat split; auto.
        + apply bytes_ok_app; auto.
        + rewrite len_app. lia.
      - set (k := N.to_nat (8 - len tail)).
        pose proof (firstn_skipn k q) as Eq.
        set (a := firstn k q) in *. set (b := skipn k q) in *.
        assert (La : len a = 8 - len tail).
        { unfold a, len. rewrite firstn_length. unfold len in *. lia. }
        assert (Lb : len b = len tail - 4).
        { unfold b, len. rewrite skipn_length. unfold len in *. lia. }
        assert (Ha : bytes_ok a) by (apply bytes_ok_firstn; auto).
        assert (Hbb : bytes_ok b) by (apply bytes_ok_skipn; auto).
        exists (gs1 ++ [t1 ++ a]), b, rest.
        rewrite <- full_words_snoc, <- E5, <- Eq.
        rewrite lor_append_overflow by (auto; lia).
        rewrite shiftr_high by (auto; lia).
        split; [rewrite Lb, E5; reflexivity|].
        rewrite concat_snoc, <- !app_assoc. repeat split; auto.
        + apply all8_snoc; auto. rewrite len_app. lia.
        + lia. }
    destruct Mid as (gs2 & t2 & r2 & -> & F2 & F3 & F4 & F5 & F6).
    rewrite <- F2.
    destruct (add_bytes_loop_ok r2 t2) as (t3 & r3 & -> & G2 & G3 & G4 & G5); auto; [lia|].
    rewrite <- G2.
    destruct G5 as [G5|[G5 ->]].
    - replace (len t3 <? 8) with false by lia.
      rewrite full_words_snoc, app_assoc, <- concat_snoc.
      apply add_aligned_rep; auto. apply all8_snoc; auto.
    - replace (len t3 <? 8) with true by lia. rewrite app_nil_r.
      exists gs2, t3. repeat split; auto. }
  destruct bs as [|b0 [|b1 [|b2 bs]]]; [exact General| | |exact General].
  - (* one byte *)
    clear General. unfold x1764_add. cbn [x_sum x_input x_n].
    replace (N.lor (le_val tail) (w64 (N.shiftl b0 (8 * len tail))))
      with (le_val (tail ++ [b0])).
    2:{ rewrite <- lor_append; auto.
        - do 3 f_equal. cbn [le_val]. lia.
        - rewrite len_cons, len_nil. lia. }
    assert (Hok : bytes_ok (tail ++ [b0])) by (apply bytes_ok_app; auto).
    rewrite <- app_assoc.
    destruct (N.eqb_spec (len tail + 1) 8).
    + exists (gs ++ [tail ++ [b0]]), []. rewrite full_words_snoc.
      rewrite concat_snoc, app_nil_r. repeat split; auto; try constructor.
      apply all8_snoc; auto. rewrite len_app, len_cons, len_nil. lia.
    + exists gs, (tail ++ [b0]).
      repeat split; auto; cbn [x_n]; rewrite len_app, len_cons, len_nil; lia.
  - (* two bytes *)
    clear General. unfold x1764_add. cbn [x_sum x_input x_n].
    apply bytes_ok_cons in Hbs as [H0 H1]. apply bytes_ok_cons in H1 as [H1 _].
    assert (O0 : bytes_ok [b0]) by (constructor; auto; constructor).
    assert (O1 : bytes_ok [b1]) by (constructor; auto; constructor).
    rewrite <- app_assoc.
    destruct (N.eqb_spec (len tail) 7) as [H7|H7].
    + exists (gs ++ [tail ++ [b0]]), [b1].
      rewrite <- full_words_snoc, concat_snoc, <- !app_assoc.
      repeat split; auto.
      * apply all8_snoc; auto. rewrite len_app, len_cons, len_nil. lia.
      * cbn [x_sum]. f_equal. rewrite <- H7.
        apply (lor_append_overflow tail [b0] [b1]); auto.
        rewrite len_cons, len_nil. lia.
      * cbn [x_input]. apply (shiftr_high [b0] [b1]); auto.
    + destruct (N.eqb_spec (len tail) 6) as [H6|H6].
      * exists (gs ++ [tail ++ [b0; b1]]), [].
        rewrite <- full_words_snoc, concat_snoc, app_nil_r.
        repeat split; auto; try constructor.
        -- apply all8_snoc; auto. rewrite len_app, !len_cons, len_nil. lia.
        -- cbn [x_sum]. f_equal. rewrite <- H6.
           apply (lor_append tail [b0; b1]); auto.
           ++ constructor; auto.
           ++ rewrite !len_cons, len_nil. lia.
      * exists gs, (tail ++ [b0; b1]).
        assert (O2 : bytes_ok [b0; b1]) by (constructor; auto).
        repeat split; auto; cbn [x_n]; try (rewrite len_app, !len_cons, len_nil; lia).
        -- apply bytes_ok_app; auto.
        -- cbn [x_input]. apply lor_append; auto. rewrite !len_cons, len_nil. lia.
Qed.

Lemma rep_fold pieces : forall l s, rep l s -> Forall bytes_ok pieces ->
  rep (fold_left x1764_add pieces l) (s ++ concat pieces).
Proof.
  induction pieces as [|p ps IH]; intros l s Hl Hp; cbn [fold_left concat].
  - rewrite app_nil_r. auto.
  - inversion Hp; subst. rewrite app_assoc. apply IH; auto. apply rep_add; auto.
Qed.

Lemma x1764_incremental pieces : Forall bytes_ok pieces ->
  x1764_finish (fold_left x1764_add pieces x1764_init) = checksum_spec (concat pieces).
Proof.
  intros H. apply rep_finish. apply (rep_fold pieces _ []); auto. apply rep_init.
Qed.
