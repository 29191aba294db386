(** Proofs about the checks at run time. *)

From Coq Require Import List ZArith Bool Lia.
From Coq Require Import Floats.SpecFloat.
Import ListNotations.
From Verif Require Import SliceModel SliceSpec SliceProofs RtCheckModel RtCheckSpec.
Local Open Scope Z_scope.

(** ** Indices *)

Lemma index_exact : forall dims idx, length idx = length dims ->
  exists cs, source_index_checks dims idx = Some cs
    /\ (all_hold cs = true <-> element dims idx).
Proof.
  unfold source_index_checks. induction dims as [| d dims IH]; intros [| i idx] L; try discriminate.
  - exists []. split; [reflexivity |]. split; [constructor | reflexivity].
  - injection L as L. destruct (IH idx L) as (cs & E & H). cbn [map index_checks]. rewrite E.
    eexists. split; [reflexivity |]. unfold all_hold in *. cbn [forallb].
    rewrite andb_true_iff, H, andb_true_iff, Z.leb_le, Z.ltb_lt.
    split; [intros ((A & B) & C); constructor; [lia | exact C] |].
    intros A. inversion A; subst. split; [lia | assumption].
Qed.

Lemma index_short : forall dims idx, (length idx < length dims)%nat ->
  source_index_checks dims idx = None.
Proof.
  unfold source_index_checks. induction dims as [| d dims IH]; intros [| i idx] L; cbn [length] in L;
    try lia; [reflexivity |].
  cbn [map index_checks]. rewrite IH by lia. reflexivity.
Qed.

(** ** Views *)

(** What the checks of a view compare. *)
Fixpoint passes (dims : list Z) (ss : list sub) : Prop :=
  match ss with
  | [] => True
  | At k :: ss' => 1 <= k <= hd 0 dims /\ passes (tl dims) ss'
  | Rng b e s :: ss' => range_size b e s <= hd 0 dims /\ passes (tl dims) ss'
  | _ :: ss' => passes (tl dims) ss'
  end.

Lemma range_shift : forall b e s, range_size (b + -1) (e + -1) s = range_size b e s.
Proof. intros. unfold range_size. do 2 f_equal. lia. Qed.

Lemma colon_size : forall d, range_size 0 (d + -1) 1 = d.
Proof. intros. unfold range_size. rewrite Z.quot_1_r. lia. Qed.

Lemma slice_dims_checks : forall dims ss r, slice_dims dims ss r ->
  exists cs, source_view_checks dims ss = Some cs /\ (all_hold cs = true <-> passes dims ss).
Proof.
  intros dims ss r H. unfold source_view_checks.
  induction H as [dims | d dims k ss r H (cs & E & I) | d dims b e s n ss r Hc H (cs & E & I)
                 | d dims ss r H (cs & E & I)]; cbn [lower_subs lower_sub].
  - exists []. split; [reflexivity | cbn; tauto].
  - destruct (lower_subs ss) as [ss' |]; [| discriminate].
    cbn [infer_bounds tl view_checks hd passes]. rewrite E. eexists. split; [reflexivity |].
    unfold all_hold in *. cbn [forallb].
    rewrite andb_true_iff, I, andb_true_iff, Z.leb_le, Z.ltb_lt. intuition lia.
  - destruct (lower_subs ss) as [ss' |]; [| discriminate].
    cbn [infer_bounds tl view_checks hd passes]. rewrite E, range_shift. eexists.
    split; [reflexivity |]. unfold all_hold in *. cbn [forallb].
    rewrite andb_true_iff, I, Z.leb_le. tauto.
  - destruct (lower_subs ss) as [ss' |]; [| discriminate].
    cbn [infer_bounds tl view_checks hd passes]. rewrite E, colon_size, Z.leb_refl. eexists.
    split; [reflexivity |]. unfold all_hold in *. cbn [forallb andb]. exact I.
Qed.

(** ** Elements of slices *)

Lemma element_exists : forall r, some_element r -> exists j, element r j.
Proof.
  intros r H. induction H as [| n r Hn H (j & IH)]; [exists []; constructor |].
  exists (1 :: j). constructor; [lia | exact IH].
Qed.

Lemma slice_exists : forall dims ss r, slice_dims dims ss r -> forall j, element r j ->
  exists i, slice_of 1 ss i j.
Proof.
  intros dims ss r H. induction H as [dims | d dims k ss r H IH | d dims b e s n ss r Hc H IH
                 | d dims ss r H IH]; intros j Hj.
  - exists j. constructor.
  - destruct (IH j Hj) as (i & Hi). exists (k :: i). constructor. exact Hi.
  - inversion Hj as [| n' x r' j' Hx Hj']; subst. destruct (IH j' Hj') as (i & Hi).
    exists (b + (x - 1) * s :: i). replace x with (1 + (x - 1)) at 2 by lia. constructor. exact Hi.
  - inversion Hj as [| n' x r' j' Hx Hj']; subst. destruct (IH j' Hj') as (i & Hi).
    exists (x :: i). constructor. exact Hi.
Qed.

Lemma slice_single : forall dims ss r, slice_dims dims ss r -> some_element r ->
  exists i j, element r j /\ slice_of 1 ss i j.
Proof.
  intros dims ss r H He. destruct (element_exists r He) as (j & Hj).
  destruct (slice_exists _ _ _ H j Hj) as (i & Hi). eauto.
Qed.

Lemma count_first : forall b e s n, range_count b e s n -> 1 <= n -> s <> 0.
Proof.
  intros b e s n (H0 & H) Hn ->. specialize (H 0 ltac:(lia)). lia.
Qed.

Lemma count_is_size : forall b e s n, range_count b e s n -> 1 <= n -> range_size b e s = n.
Proof.
  intros b e s n (H0 & H) Hn.
  assert (Q : (0 < s /\ b <= e) \/ (s < 0 /\ e <= b)).
  { specialize (H 0 ltac:(lia)). rewrite Z.mul_0_l, Z.add_0_r in H. lia. }
  apply (range_count_unique b e s); [apply range_size_count; exact Q |]. split; assumption.
Qed.

Lemma inside_passes : forall dims ss r, slice_dims dims ss r -> some_element r ->
  slice_inside dims ss r -> passes dims ss.
Proof.
  intros dims ss r H. induction H as [dims | d dims k ss r H IH | d dims b e s n ss r Hc H IH
                 | d dims ss r H IH]; intros He Hi; cbn [passes hd tl].
  - exact Logic.I.
  - destruct (slice_single _ _ _ H He) as (i & j & Hj & Hs).
    assert (T := Hi (k :: i) j Hj (so_at 1 k _ _ _ Hs)). inversion T; subst.
    split; [assumption |]. apply IH; [exact He |]. intros i' j' Hj' Hs'.
    assert (T' := Hi (k :: i') j' Hj' (so_at 1 k _ _ _ Hs')). inversion T'; subst. assumption.
  - inversion He as [| n' r' Hn He']; subst.
    destruct (slice_single _ _ _ H He') as (i & j & Hj & Hs).
    assert (F : forall m, 0 <= m < n -> 1 <= b + m * s <= d).
    { intros m Hm. assert (T := Hi (b + m * s :: i) (1 + m :: j)
                            ltac:(constructor; [lia | exact Hj]) (so_rng 1 b e s m _ _ _ Hs)).
      inversion T; subst. assumption. }
    assert (Hs0 := count_first _ _ _ _ Hc Hn). split.
    + rewrite (count_is_size _ _ _ _ Hc Hn).
      assert (A := F 0 ltac:(lia)). assert (B := F (n - 1) ltac:(lia)). nia.
    + apply IH; [exact He' |]. intros i' j' Hj' Hs'.
      assert (T := Hi (b + 0 * s :: i') (1 + 0 :: j') ltac:(constructor; [lia | exact Hj'])
                      (so_rng 1 b e s 0 _ _ _ Hs')).
      inversion T; subst. assumption.
  - inversion He as [| n' r' Hn He']; subst. apply IH; [exact He' |]. intros i' j' Hj' Hs'.
    assert (T := Hi (1 :: i') (1 :: j') ltac:(constructor; [lia | exact Hj'])
                    (so_all 1 1 _ _ _ Hs')).
    inversion T; subst. assumption.
Qed.

Lemma passes_inside : forall dims ss r, slice_dims dims ss r -> no_ranges ss ->
  passes dims ss -> slice_inside dims ss r.
Proof.
  intros dims ss r H. induction H as [dims | d dims k ss r H IH | d dims b e s n ss r Hc H IH
                 | d dims ss r H IH]; intros Hn Hp i j Hj Hs; cbn [passes hd tl] in Hp.
  - inversion Hs; subst. exact Hj.
  - inversion Hs; subst. constructor; [tauto |]. eapply IH; try eassumption; [| tauto].
    intros x Hx. apply Hn. right. exact Hx.
  - destruct (Hn _ (or_introl eq_refl)) as [Q | (x & Q)]; discriminate.
  - inversion Hs; subst. inversion Hj; subst. constructor; [assumption |].
    eapply IH; try eassumption. intros x Hx. apply Hn. right. exact Hx.
Qed.

Lemma view_exact : forall dims ss r, slice_dims dims ss r -> no_ranges ss -> some_element r ->
  exists cs, source_view_checks dims ss = Some cs
    /\ (all_hold cs = true <-> slice_inside dims ss r).
Proof.
  intros dims ss r H Hn He. destruct (slice_dims_checks _ _ _ H) as (cs & E & I).
  exists cs. split; [exact E |]. rewrite I. split.
  - apply passes_inside; assumption.
  - eapply inside_passes; eassumption.
Qed.

Lemma view_no_alarm : forall dims ss r, slice_dims dims ss r -> some_element r ->
  slice_inside dims ss r ->
  exists cs, source_view_checks dims ss = Some cs /\ all_hold cs = true.
Proof.
  intros dims ss r H He Hi. destruct (slice_dims_checks _ _ _ H) as (cs & E & I).
  exists cs. split; [exact E |]. apply I. eapply inside_passes; eassumption.
Qed.

Lemma unit_count : forall b n, 0 <= n -> range_count b (b + n - 1) 1 n.
Proof. intros b n Hn. split; [exact Hn |]. intros k Hk. lia. Qed.

Lemma view_anywhere : forall d b n, 1 <= n <= d ->
  slice_dims [d] [Rng b (b + n - 1) 1] [n]
  /\ source_view_checks [d] [Rng b (b + n - 1) 1] = Some [true]
  /\ (slice_inside [d] [Rng b (b + n - 1) 1] [n] <-> 1 <= b <= d - n + 1).
Proof.
  intros d b n H. split; [| split].
  - apply sd_rng; [apply unit_count; lia | constructor].
  - unfold source_view_checks. cbn [lower_subs lower_sub infer_bounds view_checks hd tl].
    rewrite range_shift. unfold range_size. rewrite Z.quot_1_r.
    replace (b + n - 1 - b + 1 <=? d) with true by (symmetry; apply Z.leb_le; lia). reflexivity.
  - split.
    + intros Hi.
      assert (A := Hi [b + 0 * 1] [1 + 0] ltac:(constructor; [lia | constructor])
                      (so_rng 1 _ _ _ _ _ _ _ (so_rest 1 []))).
      assert (B := Hi [b + (n - 1) * 1] [1 + (n - 1)] ltac:(constructor; [lia | constructor])
                      (so_rng 1 _ _ _ _ _ _ _ (so_rest 1 []))).
      inversion A; inversion B; subst. lia.
    + intros Hb i j Hj Hs. inversion Hs; subst. inversion Hj; subst.
      match goal with Q : slice_of _ [] _ _ |- _ => inversion Q; subst end.
      match goal with Q : Forall2 _ [] _ |- _ => inversion Q; subst end.
      constructor; [| constructor]. change (1 <= 1 + n0 <= n) in H3. lia.
Qed.

(** ** Assignments to slices *)

Lemma rest_exact : forall dims sdims, length sdims = length dims ->
  (forallb (fun c => c) (rest_checks dims sdims) = true <-> sdims = dims).
Proof.
  induction dims as [| d dims IH]; intros [| n sdims] L; try discriminate; [cbn; tauto |].
  injection L as L. cbn [rest_checks hd tl forallb]. rewrite andb_true_iff, Z.eqb_eq, IH by exact L.
  split; [intros (-> & ->); reflexivity | intros Q; injection Q; auto].
Qed.

Lemma insert_parts : forall dims ss r, slice_dims dims ss r -> no_empty ss ->
  forall sdims, length sdims = length r ->
  exists ss', lower_subs ss = Some ss'
    /\ length (infer_bounds dims ss') = length ss
    /\ (length ss <= length dims)%nat
    /\ (length r + length ss = length (filter is_range (infer_bounds dims ss')) + length dims)%nat
    /\ let '(cs, d', s') := insert_loop dims sdims (infer_bounds dims ss') in
       (forallb (fun c => c) (cs ++ rest_checks d' s') = true <-> sdims = r).
Proof.
  intros dims ss r H. induction H as [dims | d dims k ss r H IH | d dims b e s n ss r Hc H IH
                 | d dims ss r H IH]; intros Hn sdims L; cbn [lower_subs lower_sub].
  - exists []. cbn [infer_bounds length filter insert_loop app].
    repeat split; try lia; apply rest_exact; exact L.
  - destruct (IH ltac:(intros x y z Hx; apply Hn; right; exact Hx) sdims L)
      as (ss' & -> & A & B & C & D).
    eexists. split; [reflexivity |]. cbn [infer_bounds length filter is_range tl insert_loop].
    split; [lia |]. split; [lia |]. split; [lia |]. exact D.
  - destruct sdims as [| m sdims]; [discriminate |]. injection L as L.
    destruct (IH ltac:(intros x y z Hx; apply Hn; right; exact Hx) sdims L)
      as (ss' & -> & A & B & C & D).
    eexists. split; [reflexivity |]. cbn [infer_bounds length filter is_range tl hd insert_loop].
    split; [lia |]. split; [lia |]. split; [lia |].
    destruct (insert_loop dims sdims (infer_bounds dims ss')) as ((cs & d') & s').
    cbn [app forallb]. rewrite andb_true_iff, D, Z.eqb_eq, range_shift.
    assert (Q : range_size b e s = n).
    { apply (range_count_unique b e s); [apply range_size_count, Hn; left; reflexivity | exact Hc]. }
    rewrite Q. split; [intros (-> & ->); reflexivity | intros T; injection T; auto].
  - destruct sdims as [| m sdims]; [discriminate |]. injection L as L.
    destruct (IH ltac:(intros x y z Hx; apply Hn; right; exact Hx) sdims L)
      as (ss' & -> & A & B & C & D).
    eexists. split; [reflexivity |]. cbn [infer_bounds length filter is_range tl hd insert_loop].
    split; [lia |]. split; [lia |]. split; [lia |].
    destruct (insert_loop dims sdims (infer_bounds dims ss')) as ((cs & d') & s').
    cbn [app forallb]. rewrite andb_true_iff, D, Z.eqb_eq, colon_size.
    split; [intros (-> & ->); reflexivity | intros T; injection T; auto].
Qed.

Lemma insert_exact : forall dims ss r sdims, slice_dims dims ss r -> no_empty ss ->
  length sdims = length r ->
  exists cs, source_insert_checks dims sdims ss = Some cs /\ (all_hold cs = true <-> sdims = r).
Proof.
  intros dims ss r sdims H Hn L.
  destruct (insert_parts _ _ _ H Hn sdims L) as (ss' & E & A & B & C & D).
  unfold source_insert_checks. rewrite E. unfold insert_checks.
  destruct (insert_loop dims sdims (infer_bounds dims ss')) as ((cs & d') & s').
  replace (Z.of_nat (length dims) - Z.of_nat (length (infer_bounds dims ss')) =?
           Z.of_nat (length sdims) - Z.of_nat (length (filter is_range (infer_bounds dims ss'))))
    with true by (symmetry; apply Z.eqb_eq; lia).
  eexists. split; [reflexivity | exact D].
Qed.

Lemma insert_row_anywhere : forall d n k, 1 <= n ->
  slice_dims [d; n] [At k] [n]
  /\ source_insert_checks [d; n] [n] [At k] = Some [true]
  /\ (slice_inside [d; n] [At k] [n] <-> 1 <= k <= d).
Proof.
  intros d n k Hn. split; [| split].
  - apply sd_at, sd_rest.
  - unfold source_insert_checks, insert_checks. cbn. rewrite Z.eqb_refl. reflexivity.
  - split.
    + intros Hi. assert (T := Hi [k; 1] [1] ltac:(constructor; [lia | constructor])
                                (so_at 1 _ _ _ _ (so_rest 1 [1]))). inversion T; subst. assumption.
    + intros Hk i j Hj Hs. inversion Hs; subst.
      match goal with Q : slice_of _ [] _ _ |- _ => inversion Q; subst end.
      constructor; [exact Hk | exact Hj].
Qed.

(** ** Numbers *)

Lemma nonzero_exact : forall b, nonzero_check b = true <-> ~ is_zero b /\ ~ is_nan b.
Proof.
  unfold nonzero_check, cmp_one, is_zero, is_nan, f0.
  intros [s | s | | s m e]; cbn; try destruct s;
    split; try discriminate; try reflexivity;
    try (intros (A & B); exfalso; eauto; fail);
    try (intros _; split; [intros (x & Q); discriminate | discriminate]).
  all: intros (A & B); exfalso; try (apply A; eexists; reflexivity); apply B; reflexivity.
Qed.

Lemma positive_exact : forall a, positive_check true a = true <-> above_zero a.
Proof.
  unfold positive_check, cmp_ogt, SFltb, above_zero, f0.
  intros [s | s | | s m e]; cbn; try destruct s; split; try discriminate; try reflexivity;
    try (intros [Q | (x & y & Q)]; discriminate); eauto.
Qed.

Lemma nonneg_exact : forall a, positive_check false a = true <-> above_zero a \/ is_zero a.
Proof.
  unfold positive_check, cmp_oge, SFleb, above_zero, is_zero, f0.
  intros [s | s | | s m e]; cbn; try destruct s; split; try discriminate; try reflexivity;
    try (intros [[Q | (x & y & Q)] | (x & Q)]; discriminate); eauto.
Qed.

Lemma digits_pos : forall m, digits2_pos m = Pos.size m.
Proof. induction m as [m IH | m IH |]; cbn; rewrite ?IH; reflexivity. Qed.

Lemma digits_bounds : forall m n, Zpos (digits2_pos m) = n ->
  2 ^ (n - 1) <= Zpos m < 2 ^ n.
Proof.
  intros m n <-. rewrite digits_pos. split.
  - assert (H := Pos.size_le m). apply Pos2Z.pos_le_pos in H. rewrite Pos2Z.inj_pow in H.
    replace (Z.pos m~0) with (2 * Z.pos m) in H by lia.
    replace (Z.pos (Pos.size m)) with ((Z.pos (Pos.size m) - 1) + 1) in H at 1 by lia.
    rewrite Z.pow_add_r in H by lia. lia.
  - assert (H := Pos.size_gt m). apply Pos2Z.pos_lt_pos in H. rewrite Pos2Z.inj_pow in H. exact H.
Qed.

(** The comparison with one of a number in the representation of the format. *)
Lemma one_compare : forall s m e, double (S754_finite s m e) ->
  (at_most_one m e <->
   match Z.compare e (-52) with
   | Lt => True | Gt => False | Eq => Zpos m <= 4503599627370496
   end).
Proof.
  intros s m e V. unfold double in V. cbn in V. unfold bounded in V.
  apply andb_true_iff in V as (V & _). unfold canonical_mantissa in V.
  apply Zeq_bool_eq in V. unfold fexp in V. unfold at_most_one.
  remember (Zpos (digits2_pos m)) as n eqn:En. symmetry in En.
  assert (B := digits_bounds m n En).
  destruct (Z.compare_spec e (-52)) as [-> | L | G].
  - cbn. lia.
  - replace (e <? 0) with true by (symmetry; apply Z.ltb_lt; lia). split; [auto |]. intros _.
    assert (n <= 53) by (unfold emin in *; lia).
    assert (2 ^ n <= 2 ^ (- e)) by (apply Z.pow_le_mono_r; lia). lia.
  - assert (Hn : n = 53) by (unfold emin in *; lia). subst n. rewrite Hn in B.
    replace (2 ^ (53 - 1)) with 4503599627370496 in B by reflexivity.
    destruct (Z.ltb_spec e 0) as [N | N].
    + split; [| tauto]. intros Q.
      assert (2 ^ (- e) <= 2 ^ 51) by (apply Z.pow_le_mono_r; lia).
      replace (2 ^ 51) with 2251799813685248 in * by reflexivity. lia.
    + split; [| tauto]. intros Q. assert (0 < 2 ^ e) by (apply Z.pow_pos_nonneg; lia). nia.
Qed.

Lemma between_exact : forall a, double a -> (between_check a = true <-> in_unit a).
Proof.
  unfold between_check, cmp_oge, cmp_ole, SFleb, in_unit, is_zero, f1, fm1.
  intros [s | s | | s m e] V.
  - cbn. split; [eauto | reflexivity].
  - destruct s; cbn; (split; [discriminate |]);
      intros [(x & Q) | (x & y & z & Q & _)]; discriminate.
  - cbn. split; [discriminate |]. intros [(x & Q) | (x & y & z & Q & _)]; discriminate.
  - assert (T := one_compare s m e V).
    assert (X : ((exists s0, S754_finite s m e = S754_zero s0)
                 \/ exists s0 m0 e0, S754_finite s m e = S754_finite s0 m0 e0 /\ at_most_one m0 e0)
                <-> at_most_one m e).
    { split; [| intros Q; right; eauto 6].
      intros [(x & Q) | (x & y & z & Q & R)]; [discriminate |]. injection Q as -> -> ->. exact R. }
    rewrite X, T. clear X T V. generalize 4503599627370496%positive. intros c.
    destruct s; cbn [SFcompare].
    + rewrite (Z.compare_antisym e (-52)). destruct (e ?= -52); cbn [CompOpp andb].
      * fold (Pos.compare c m). rewrite andb_true_r.
        destruct (Pos.compare_spec c m); cbn [CompOpp]; split; intros; try lia; reflexivity.
      * tauto.
      * split; [discriminate | tauto].
    + destruct (e ?= -52); cbn [andb].
      * fold (Pos.compare m c).
        destruct (Pos.compare_spec m c); split; intros; try lia; try discriminate; reflexivity.
      * tauto.
      * split; [discriminate | tauto].
Qed.

Lemma math_exact : forall m, math_doubles m ->
  (all_hold (math_checks m) = true <-> math_defined m).
Proof.
  unfold all_hold.
  intros [a b | a b | a b | a b | xs ys | a | a | a | a | a] D;
    cbn [math_checks math_defined math_doubles forallb] in *; rewrite ?andb_true_r;
    auto using nonzero_exact, positive_exact, nonneg_exact, between_exact.
  rewrite forallb_forall. split.
  - intros H b Hb. apply nonzero_exact. apply H, in_map, Hb.
  - intros H c Hc. apply in_map_iff in Hc as (b & <- & Hb). apply nonzero_exact, H, Hb.
Qed.
