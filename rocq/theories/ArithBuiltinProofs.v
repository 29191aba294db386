(** Proofs about the folding of the built-in functions. *)
From Coq Require Import ZArith Reals Bool SpecFloat Lia Lra ZifyBool.
From Flocq Require Import Core IEEE754.BinarySingleNaN Relative.
From Verif Require Import Result ArithModel ArithSpec FloatFacts ArithProofs ArithFoldProofs.
Local Open Scope R_scope.

Lemma is_num_B : forall f r, is_num f r <-> exists x : double, f = B2SF x /\ is_finite x = true /\ B2R x = r.
Proof.
  intros f r. split.
  - intros (D & F & E). destruct (double_of _ D) as [x ->]. exists x. split; [reflexivity|]. split.
    + destruct x; cbn in F; auto.
    + unfold R_of in E. now rewrite SF2R_B2SF in E.
  - intros (x & -> & F & E). split; [apply valid_B|]. split; [destruct x; cbn in F; try discriminate; exact I|].
    unfold R_of. now rewrite SF2R_B2SF.
Qed.
Lemma normalize_num : forall z s, (Z.abs z <= 2 ^ 53)%Z -> is_num (SpecFloat.binary_normalize 53 1024 z 0 s) (IZR z).
Proof.
  intros z s Hz. apply is_num_B. exists (BinarySingleNaN.binary_normalize 53 1024 Hprec Hmax mode_NE z 0 s). split; [apply normalize_B|].
  pose proof (binary_normalize_correct 53 1024 Hprec Hmax mode_NE z 0 s) as H. cbv zeta in H.
  replace (F2R (Float radix2 z 0)) with (IZR z) in H by (unfold F2R; cbn; ring).
  change (round_mode mode_NE) with ZnearestE in H. rewrite round_Z in H by exact Hz.
  rewrite Rlt_bool_true in H; [split; apply H|].
  apply Rle_lt_trans with (IZR (2 ^ 53)); [now apply IZR_abs_le|]. rewrite <- bpow_Z by lia. apply bpow_lt. lia.
Qed.
Lemma small_bound : forall z : Z, (Z.abs z <= 2 ^ 53)%Z -> Rlt_bool (Rabs (IZR z)) (bpow radix2 1024) = true.
Proof.
  intros z Hz. apply Rlt_bool_true. apply Rle_lt_trans with (IZR (2 ^ 53)); [now apply IZR_abs_le|]. rewrite <- bpow_Z by lia. apply bpow_lt. lia.
Qed.
Lemma mul_num : forall a b x y n, is_num a x -> is_num b y -> x * y = IZR n -> (Z.abs n <= 2 ^ 53)%Z -> is_num (rmul a b) (IZR n).
Proof.
  intros a b x y n A B E Hn. apply is_num_B in A, B. destruct A as (u & -> & Fu & <-). destruct B as (v & -> & Fv & <-).
  apply is_num_B. exists (Bmult mode_NE u v). unfold rmul. split; [apply mul_B|].
  pose proof (Bmult_correct 53 1024 Hprec Hmax mode_NE u v) as H. change (round_mode mode_NE) with ZnearestE in H.
  rewrite E, round_Z, small_bound in H by exact Hn. rewrite Fu, Fv in H. split; apply H.
Qed.
Lemma sub_num : forall a b x y n, is_num a x -> is_num b y -> x - y = IZR n -> (Z.abs n <= 2 ^ 53)%Z -> is_num (rsub a b) (IZR n).
Proof.
  intros a b x y n A B E Hn. apply is_num_B in A, B. destruct A as (u & -> & Fu & <-). destruct B as (v & -> & Fv & <-).
  apply is_num_B. exists (Bminus mode_NE u v). unfold rsub. split; [apply sub_B|].
  pose proof (Bminus_correct 53 1024 Hprec Hmax mode_NE u v Fu Fv) as H. change (round_mode mode_NE) with ZnearestE in H.
  rewrite E, round_Z, small_bound in H by exact Hn. split; apply H.
Qed.
Lemma div_num : forall a b x y, is_num a x -> is_num b y -> y <> 0 -> Rabs (x / y) <= IZR (2 ^ 53) -> is_num (rdiv a b) (rnd (x / y)).
Proof.
  intros a b x y A B Ny Hn. apply is_num_B in A, B. destruct A as (u & -> & Fu & <-). destruct B as (v & -> & Fv & <-).
  apply is_num_B. exists (Bdiv mode_NE u v). unfold rdiv. split; [apply div_B|].
  pose proof (Bdiv_correct 53 1024 Hprec Hmax mode_NE u v Ny) as H. change (round_mode mode_NE) with ZnearestE in H.
  rewrite Rlt_bool_true in H.
  - rewrite Fu in H. split; apply H.
  - apply Rle_lt_trans with (bpow radix2 53).
    + apply (abs_round_le_generic radix2 fexp64 ZnearestE (B2R u / B2R v) (bpow radix2 53)); [apply generic_format_bpow; cbn; lia|].
      now rewrite bpow_Z by lia.
    + apply bpow_lt. lia.
Qed.

(** The parts of a finite double. *)
Lemma R_of_finite : forall s m e, R_of (S754_finite s m e) = IZR (scaled s m) * bpow radix2 e.
Proof. intros s m e. unfold R_of, SF2R, F2R. cbn [Fnum Fexp]. now destruct s. Qed.
Lemma R_of_int : forall s m e, (0 <= e)%Z -> R_of (S754_finite s m e) = IZR (scaled s m * 2 ^ e).
Proof. intros s m e H. rewrite R_of_finite, bpow_Z by exact H. now rewrite mult_IZR. Qed.
Lemma R_of_frac : forall s m e, (e < 0)%Z -> R_of (S754_finite s m e) = IZR (scaled s m) / IZR (2 ^ (- e)).
Proof.
  intros s m e H. rewrite R_of_finite. unfold Rdiv. f_equal. rewrite <- bpow_Z by lia. rewrite <- bpow_opp. f_equal. lia.
Qed.
Lemma scaled_small : forall s m e, is_double (S754_finite s m e) -> (Z.abs (scaled s m) < 2 ^ 53)%Z.
Proof.
  intros s m e D. unfold is_double in D. cbn in D. unfold bounded, canonical_mantissa in D. apply andb_prop in D. destruct D as [D _].
  apply Zeq_bool_eq in D. unfold SpecFloat.fexp, SpecFloat.emin in D.
  assert (Hd : (Z.pos (digits2_pos m) <= 53)%Z) by lia.
  rewrite Digits.Zpos_digits2_pos in Hd. apply Digits.Zpower_gt_Zdigits in Hd. change (Zpower radix2 53) with (2 ^ 53)%Z in Hd.
  destruct s; cbn [scaled Z.abs] in *; exact Hd.
Qed.
Lemma pow_pos_neg : forall e, (e < 0)%Z -> (0 < 2 ^ (- e))%Z.
Proof. intros e H. apply Z.pow_pos_nonneg; lia. Qed.

Theorem rfloor_num : forall f, is_double f -> finite f -> is_num (rfloor f) (IZR (Zfloor (R_of f))).
Proof.
  intros f D F. destruct f as [s| | |s m e]; cbn in F; try contradiction.
  - split; [exact D|]. split; [exact I|]. cbn. now rewrite Zfloor_IZR.
  - unfold rfloor. destruct (Z.leb_spec 0 e) as [H|H].
    + split; [exact D|]. split; [exact I|]. rewrite R_of_int by exact H. now rewrite Zfloor_IZR.
    + rewrite R_of_frac by exact H. pose proof (pow_pos_neg e H). rewrite Zfloor_div by lia. apply normalize_num.
      pose proof (scaled_small s m e D). set (k := (2 ^ (- e))%Z) in *.
      pose proof (Z.div_mod (scaled s m) k ltac:(lia)). pose proof (Z.mod_pos_bound (scaled s m) k ltac:(lia)). nia.
Qed.
Theorem rceil_num : forall f, is_double f -> finite f -> is_num (rceil f) (IZR (Zceil (R_of f))).
Proof.
  intros f D F. destruct f as [s| | |s m e]; cbn in F; try contradiction.
  - split; [exact D|]. split; [exact I|]. cbn. now rewrite Zceil_IZR.
  - unfold rceil. destruct (Z.leb_spec 0 e) as [H|H].
    + split; [exact D|]. split; [exact I|]. rewrite R_of_int by exact H. now rewrite Zceil_IZR.
    + rewrite R_of_frac by exact H. pose proof (pow_pos_neg e H). unfold Zceil.
      replace (- (IZR (scaled s m) / IZR (2 ^ (- e)))) with (IZR (- scaled s m) / IZR (2 ^ (- e))) by (rewrite opp_IZR; unfold Rdiv; ring).
      rewrite Zfloor_div by lia. apply normalize_num.
      pose proof (scaled_small s m e D). set (k := (2 ^ (- e))%Z) in *.
      pose proof (Z.div_mod (- scaled s m) k ltac:(lia)). pose proof (Z.mod_pos_bound (- scaled s m) k ltac:(lia)). nia.
Qed.
Theorem rtrunc_num : forall f, is_double f -> finite f -> is_num (rtrunc f) (IZR (Ztrunc (R_of f))).
Proof.
  intros f D F. destruct f as [s| | |s m e]; cbn in F; try contradiction.
  - split; [exact D|]. split; [exact I|]. cbn. now rewrite Ztrunc_IZR.
  - unfold rtrunc. destruct (Z.leb_spec 0 e) as [H|H].
    + split; [exact D|]. split; [exact I|]. rewrite R_of_int by exact H. now rewrite Ztrunc_IZR.
    + rewrite R_of_frac by exact H. pose proof (pow_pos_neg e H). rewrite Ztrunc_div by lia. apply normalize_num.
      pose proof (scaled_small s m e D). set (k := (2 ^ (- e))%Z) in *.
      pose proof (Z.quot_abs (scaled s m) k ltac:(lia)) as QA. rewrite (Z.abs_eq k) in QA by lia.
      pose proof (Z.quot_le_upper_bound (Z.abs (scaled s m)) k (2 ^ 53) ltac:(lia)) as QU. specialize (QU ltac:(nia)). lia.
Qed.
Theorem int_part_num : forall f, finite f -> int_part f = Some (Ztrunc (R_of f)).
Proof.
  intros f F. destruct f as [s| | |s m e]; cbn in F; try contradiction.
  - cbn. now rewrite Ztrunc_IZR.
  - unfold int_part. destruct (Z.leb_spec 0 e) as [H|H].
    + rewrite R_of_int by exact H. now rewrite Ztrunc_IZR.
    + rewrite R_of_frac by exact H. pose proof (pow_pos_neg e H). now rewrite Ztrunc_div by lia.
Qed.
Lemma attr_of_num : forall f n, is_num f (IZR n) -> in_range n -> attr_of_real TInt f = Ok (AI n).
Proof.
  intros f n (D & F & E) R. unfold attr_of_real, to_int64. rewrite (int_part_num f F), E, Ztrunc_IZR, int64_ok by exact R. reflexivity.
Qed.

(** Division of small integers with doubles: rounding does not reach the
    next integer. *)
Section Quotient.
Variables x y : Z.
Hypothesis Hx : (Z.abs x < 2 ^ 53)%Z.
Hypothesis Hy : (y <> 0)%Z.
Hypothesis Hy' : (Z.abs y <= 2 ^ 53)%Z.
Let r := IZR x / IZR y.

Lemma y_pos : 0 < Rabs (IZR y).
Proof. apply Rabs_pos_lt. now apply not_0_IZR. Qed.
Lemma r_abs : Rabs r = Rabs (IZR x) / Rabs (IZR y).
Proof. unfold r, Rdiv. rewrite Rabs_mult, Rabs_inv. reflexivity. Qed.
Lemma r_error : Rabs (rnd r - r) < / Rabs (IZR y).
Proof.
  pose proof y_pos as P. destruct (Z.eq_dec x 0) as [->|Nx].
  - unfold r. replace (IZR 0 / IZR y) with 0 by (unfold Rdiv; ring). rewrite round_0 by typeclasses eauto.
    rewrite Rminus_0_r, Rabs_R0. now apply Rinv_0_lt_compat.
  - assert (B : bpow radix2 (-1074 + 53 - 1) <= Rabs r).
    { rewrite r_abs. apply Rle_trans with (/ IZR (2 ^ 53)).
      - rewrite <- bpow_Z by lia. rewrite <- bpow_opp. apply bpow_le. lia.
      - apply Rle_trans with (1 / Rabs (IZR y)).
        + unfold Rdiv. rewrite Rmult_1_l. apply Rinv_le; [exact P|]. now apply IZR_abs_le.
        + unfold Rdiv. apply Rmult_le_compat_r; [left; now apply Rinv_0_lt_compat|].
          rewrite <- abs_IZR. apply (IZR_le 1). lia. }
    pose proof (relative_error_N_FLT radix2 (-1074) 53 ltac:(reflexivity) (fun n => negb (Z.even n)) r B) as E.
    change (FLT_exp (-1074) 53) with fexp64 in E. change (Znearest (fun n => negb (Z.even n))) with ZnearestE in E.
    eapply Rle_lt_trans; [exact E|]. rewrite r_abs.
    replace (/ 2 * bpow radix2 (- (53) + 1)) with (/ IZR (2 ^ 53)).
    2:{ rewrite <- bpow_Z by lia. rewrite <- bpow_opp. change (/ 2) with (/ bpow radix2 1). rewrite <- bpow_opp, <- bpow_plus. reflexivity. }
    unfold Rdiv. rewrite <- Rmult_assoc. apply Rlt_le_trans with (1 * / Rabs (IZR y)); [|right; ring].
    apply Rmult_lt_compat_r; [now apply Rinv_0_lt_compat|].
    assert (P53 : 0 < IZR (2 ^ 53)) by (apply (IZR_lt 0); lia).
    apply Rmult_lt_reg_l with (IZR (2 ^ 53)); [exact P53|].
    replace (IZR (2 ^ 53) * (/ IZR (2 ^ 53) * Rabs (IZR x))) with (Rabs (IZR x)) by (field; lra).
    rewrite Rmult_1_r, <- abs_IZR. now apply IZR_lt.
Qed.
(** A quotient that is not an integer n is far enough from it. *)
Lemma r_gap : forall n, r <> IZR n -> / Rabs (IZR y) <= Rabs (r - IZR n).
Proof.
  intros n N. pose proof y_pos as P. assert (Ny : IZR y <> 0) by (now apply not_0_IZR).
  replace (r - IZR n) with (IZR (x - n * y) / IZR y).
  2:{ unfold r. rewrite minus_IZR, mult_IZR. field. exact Ny. }
  unfold Rdiv. rewrite Rabs_mult, Rabs_inv. rewrite <- (Rmult_1_l (/ Rabs (IZR y))) at 1.
  apply Rmult_le_compat_r; [left; now apply Rinv_0_lt_compat|].
  rewrite <- abs_IZR. apply (IZR_le 1). assert (x - n * y <> 0)%Z; [|lia]. intros E. apply N. unfold r.
  replace x with (n * y)%Z by lia. rewrite mult_IZR. field. exact Ny.
Qed.
Lemma r_le_x : forall n, r = IZR n -> (Z.abs n <= 2 ^ 53)%Z.
Proof.
  intros n E. assert (Ny : IZR y <> 0) by (now apply not_0_IZR).
  assert (H : x = (n * y)%Z). { apply eq_IZR. rewrite mult_IZR, <- E. unfold r. field. exact Ny. } nia.
Qed.
Lemma r_lt : forall n, r < IZR n -> rnd r < IZR n.
Proof.
  intros n H. pose proof r_error as E. assert (N : r <> IZR n) by lra. pose proof (r_gap n N) as G.
  rewrite (Rabs_left (r - IZR n)) in G by lra. apply Rabs_def2 in E. destruct E. lra.
Qed.
Lemma r_gt : forall n, IZR n < r -> IZR n < rnd r.
Proof.
  intros n H. pose proof r_error as E. assert (N : r <> IZR n) by lra. pose proof (r_gap n N) as G.
  rewrite (Rabs_right (r - IZR n)) in G by lra. apply Rabs_def2 in E. destruct E. lra.
Qed.
Lemma r_eq : forall n, r = IZR n -> rnd r = IZR n.
Proof. intros n E. rewrite E. apply round_Z. now apply r_le_x. Qed.
Theorem floor_rnd : Zfloor (rnd r) = Zfloor r.
Proof.
  apply Zfloor_imp. pose proof (Zfloor_lb r) as L. pose proof (Zfloor_ub r) as U. split.
  - destruct (Rle_lt_or_eq_dec _ _ L) as [H|H]; [left; now apply r_gt|]. right. symmetry. now apply r_eq.
  - apply r_lt. rewrite plus_IZR. exact U.
Qed.
Theorem ceil_rnd : Zceil (rnd r) = Zceil r.
Proof.
  apply Zceil_imp. pose proof (Zceil_ub r) as U. pose proof (Zceil_lb r) as L. split.
  - apply r_gt. rewrite minus_IZR. lra.
  - destruct (Rle_lt_or_eq_dec _ _ U) as [H|H]; [left; now apply r_lt|]. right. now apply r_eq.
Qed.
Theorem trunc_rnd : Ztrunc (rnd r) = Ztrunc r.
Proof.
  destruct (Rle_or_lt 0 r) as [H|H].
  - rewrite !Ztrunc_floor; [apply floor_rnd|exact H|]. apply (round_ge_generic radix2 fexp64 ZnearestE 0 r); [apply generic_format_0|exact H].
  - rewrite !Ztrunc_ceil; [apply ceil_rnd|lra|]. apply (round_le_generic radix2 fexp64 ZnearestE r 0); [apply generic_format_0|lra].
Qed.
Lemma quotient_num : is_num (rdiv (of_Z x) (of_Z y)) (rnd r).
Proof.
  apply div_num; [apply normalize_num; lia|apply normalize_num; lia|now apply not_0_IZR|].
  fold r. rewrite r_abs. apply Rle_trans with (Rabs (IZR x)).
  - unfold Rdiv. rewrite <- (Rmult_1_r (Rabs (IZR x))) at 2. apply Rmult_le_compat_l; [apply Rabs_pos|].
    rewrite <- Rinv_1. apply Rinv_le; [lra|]. rewrite <- abs_IZR. apply (IZR_le 1). lia.
  - apply IZR_abs_le. lia.
Qed.
End Quotient.

Theorem fold_div_int : forall x y, (Z.abs x < 2 ^ 53)%Z -> (Z.abs y <= 2 ^ 53)%Z -> (y <> 0)%Z ->
  fold_div_trunc TInt (Some (AI x)) (Some (AI y)) = Ok (Some (AI (Z.quot x y))).
Proof.
  intros x y Hx Hy' Hy. cbn [fold_div_trunc fold2 attr_ty is_scalar int_like andb int_value]. unfold some_attr.
  destruct (quotient_num x y Hx Hy Hy') as (D & F & E). unfold attr_of_real, to_int64. rewrite (int_part_num _ F), E, trunc_rnd by assumption.
  rewrite Ztrunc_div by exact Hy. rewrite int64_ok; [reflexivity|].
  pose proof (Z.quot_abs x y Hy) as Q. pose proof (Z.quot_le_upper_bound (Z.abs x) (Z.abs y) (2 ^ 53) ltac:(lia)) as U.
  specialize (U ltac:(nia)). unfold in_range. lia.
Qed.
Theorem fold_mod_int : forall x y, (Z.abs x + Z.abs y <= 2 ^ 53)%Z -> (y <> 0)%Z ->
  fold_mod TInt (Some (AI x)) (Some (AI y)) = Ok (Some (AI (x mod y))).
Proof.
  intros x y H Hy. cbn [fold_mod fold2 attr_ty is_scalar int_like andb int_value]. unfold some_attr, mod_real.
  pose proof (quotient_num x y ltac:(lia) Hy ltac:(lia)) as (D & F & E).
  pose proof (rfloor_num _ D F) as Fl. rewrite E, floor_rnd in Fl by lia. rewrite Zfloor_div in Fl by exact Hy.
  pose proof (Z.div_mod x y Hy) as DM.
  assert (MB : (Z.abs (x mod y) <= Z.abs y)%Z).
  { destruct (Z_lt_le_dec 0 y); [pose proof (Z.mod_pos_bound x y ltac:(lia))|pose proof (Z.mod_neg_bound x y ltac:(lia))]; lia. }
  assert (M : is_num (rmul (rfloor (rdiv (of_Z x) (of_Z y))) (of_Z y)) (IZR (x / y * y))).
  { eapply mul_num; [exact Fl|apply normalize_num; lia|now rewrite mult_IZR|]. replace (x / y * y)%Z with (x - x mod y)%Z by lia. lia. }
  assert (S0 : is_num (rsub (of_Z x) (rmul (rfloor (rdiv (of_Z x) (of_Z y))) (of_Z y))) (IZR (x mod y))).
  { eapply sub_num; [apply normalize_num; lia|exact M| |lia]. rewrite <- minus_IZR. f_equal. lia. }
  rewrite (attr_of_num _ _ S0); [reflexivity|]. unfold in_range. lia.
Qed.
Theorem fold_rem_int : forall lib x y, (y <> 0)%Z -> in_range (Z.quot x y) ->
  fold_rem lib TInt (Some (AI x)) (Some (AI y)) = Ok (Some (AI (Z.rem x y))).
Proof.
  intros lib x y Hy R. cbn. unfold rem_int. replace (y =? 0)%Z with false by lia. now rewrite int64_ok.
Qed.
Theorem fold_integer_real : forall f, is_double f -> finite f -> in_range (Zfloor (R_of f)) ->
  fold_integer TInt (Some (AR f)) = Ok (Some (AI (Zfloor (R_of f)))).
Proof.
  intros f D F R. cbn [fold_integer fold1 attr_ty is_scalar int_like float_like float_value]. unfold some_attr.
  now rewrite (attr_of_num _ _ (rfloor_num f D F) R).
Qed.

(** Comparison of finite doubles is that of the numbers. *)
Lemma compare_num : forall f g, is_double f -> is_double g -> finite f -> finite g ->
  SFcompare f g = Some (Rcompare (R_of f) (R_of g)).
Proof.
  intros f g Df Dg Ff Fg. destruct (double_of _ Df) as [x ->]. destruct (double_of _ Dg) as [y ->].
  unfold R_of. rewrite !SF2R_B2SF. rewrite <- (Bcompare_correct 53 1024 x y); [reflexivity| |]; [destruct x|destruct y]; cbn in *; auto.
Qed.
Lemma ltb_num : forall f g, is_double f -> is_double g -> finite f -> finite g -> SFltb f g = Rlt_bool (R_of f) (R_of g).
Proof. intros. unfold SFltb, Rlt_bool. rewrite compare_num by assumption. now destruct (Rcompare _ _). Qed.
Lemma leb_num : forall f g, is_double f -> is_double g -> finite f -> finite g -> SFleb f g = Rle_bool (R_of f) (R_of g).
Proof. intros. unfold SFleb, Rle_bool. rewrite compare_num by assumption. now destruct (Rcompare _ _). Qed.
Lemma eqb_num : forall f g, is_double f -> is_double g -> finite f -> finite g -> SFeqb f g = Req_bool (R_of f) (R_of g).
Proof. intros. unfold SFeqb, Req_bool. rewrite compare_num by assumption. now destruct (Rcompare _ _). Qed.

Lemma scalar_num : forall a r, const_num a r -> exists f, scalar_value a = Some f /\ is_num f r /\
  (forall g, a = AR g -> f = g) /\ (forall z, a = AI z -> f = of_Z z).
Proof.
  intros [b|z|f|z|] r H; cbn in H; try contradiction.
  - destruct H as [B <-]. exists (of_Z z). split; [reflexivity|]. split; [now apply normalize_num|]. split; intros ? E; [discriminate|congruence].
  - exists f. split; [reflexivity|]. split; [exact H|]. split; intros ? E; [congruence|discriminate].
Qed.
Theorem fold_max_num : forall a b x y, const_num a x -> const_num b y -> (exists f, a = AR f) \/ (exists f, b = AR f) ->
  exists f, fold_max TReal (Some a) (Some b) = Ok (Some (AR f)) /\ is_num f (Rmax x y).
Proof.
  intros a b x y A B K. destruct (scalar_num _ _ A) as (f & Sf & Nf & Ef1 & Ef2). destruct (scalar_num _ _ B) as (g & Sg & Ng & Eg1 & Eg2).
  pose proof Nf as (Df & Ff & Rf). pose proof Ng as (Dg & Fg & Rg).
  assert (H1 : is_num (if SFltb f g then g else f) (Rmax x y)).
  { rewrite ltb_num by assumption. rewrite Rf, Rg. destruct (Rlt_bool_spec x y); [rewrite Rmax_right by lra|rewrite Rmax_left by lra]; assumption. }
  assert (H2 : is_num (if SFleb g f then f else g) (Rmax x y)).
  { rewrite leb_num by assumption. rewrite Rf, Rg. destruct (Rle_bool_spec y x); [rewrite Rmax_left by lra|rewrite Rmax_right by lra]; assumption. }
  destruct a as [|za|fa| |], b as [|zb|fb| |]; cbn in A, B; try contradiction.
  - destruct K as [[? K]|[? K]]; discriminate.
  - rewrite (Ef2 _ eq_refl), (Eg1 _ eq_refl) in *. eexists; split; [reflexivity|exact H2].
  - rewrite (Ef1 _ eq_refl), (Eg2 _ eq_refl) in *. eexists; split; [reflexivity|exact H2].
  - rewrite (Ef1 _ eq_refl), (Eg1 _ eq_refl) in *. eexists; split; [reflexivity|exact H1].
Qed.
Theorem fold_min_num : forall a b x y, const_num a x -> const_num b y -> (exists f, a = AR f) \/ (exists f, b = AR f) ->
  exists f, fold_min TReal (Some a) (Some b) = Ok (Some (AR f)) /\ is_num f (Rmin x y).
Proof.
  intros a b x y A B K. destruct (scalar_num _ _ A) as (f & Sf & Nf & Ef1 & Ef2). destruct (scalar_num _ _ B) as (g & Sg & Ng & Eg1 & Eg2).
  pose proof Nf as (Df & Ff & Rf). pose proof Ng as (Dg & Fg & Rg).
  assert (H1 : is_num (if SFltb g f then g else f) (Rmin x y)).
  { rewrite ltb_num by assumption. rewrite Rf, Rg. destruct (Rlt_bool_spec y x); [rewrite Rmin_right by lra|rewrite Rmin_left by lra]; assumption. }
  assert (H2 : is_num (if SFleb f g then f else g) (Rmin x y)).
  { rewrite leb_num by assumption. rewrite Rf, Rg. destruct (Rle_bool_spec x y); [rewrite Rmin_left by lra|rewrite Rmin_right by lra]; assumption. }
  destruct a as [|za|fa| |], b as [|zb|fb| |]; cbn in A, B; try contradiction.
  - destruct K as [[? K]|[? K]]; discriminate.
  - rewrite (Ef2 _ eq_refl), (Eg1 _ eq_refl) in *. eexists; split; [reflexivity|exact H2].
  - rewrite (Ef1 _ eq_refl), (Eg2 _ eq_refl) in *. eexists; split; [reflexivity|exact H2].
  - rewrite (Ef1 _ eq_refl), (Eg1 _ eq_refl) in *. eexists; split; [reflexivity|exact H1].
Qed.
Lemma fold_max_int : forall x y, fold_max TInt (Some (AI x)) (Some (AI y)) = Ok (Some (AI (Z.max x y))).
Proof. intros x y. cbn. do 3 f_equal. destruct (Z.ltb_spec x y); lia. Qed.
Lemma fold_min_int : forall x y, fold_min TInt (Some (AI x)) (Some (AI y)) = Ok (Some (AI (Z.min x y))).
Proof. intros x y. cbn. do 3 f_equal. destruct (Z.ltb_spec y x); lia. Qed.
Lemma fold_abs_num : forall f r, is_num f r -> exists g, fold_abs TReal (Some (AR f)) = Ok (Some (AR g)) /\ is_num g (Rabs r).
Proof.
  intros f r H. exists (SFabs f). split; [reflexivity|]. apply is_num_B in H. destruct H as (x & -> & F & <-). apply is_num_B.
  exists (Babs x). split; [now destruct x|]. split; [now rewrite is_finite_Babs|]. apply B2R_Babs.
Qed.
Lemma fold_sign_num : forall a r, const_num a r -> fold_sign TInt (Some a) = Ok (Some (AI (sign_of r))).
Proof.
  intros [b|z|f|z|] r H; cbn in H; try contradiction.
  - destruct H as [_ <-]. cbn. unfold sign_of.
    destruct (Z.eqb_spec z 0) as [->|N]; [rewrite !Rlt_bool_false by lra; reflexivity|].
    destruct (Z.ltb_spec 0 z) as [P|P].
    + rewrite Rlt_bool_false by (apply (IZR_le 0); lia). rewrite Rlt_bool_true by (apply (IZR_lt 0); lia). reflexivity.
    + rewrite Rlt_bool_true by (apply (IZR_lt _ 0); lia). reflexivity.
  - destruct H as (D & F & E). cbn. unfold sign_of.
    assert (Z0 : is_double rzero /\ finite rzero /\ R_of rzero = 0) by (split; [reflexivity|]; split; [exact I|reflexivity]).
    destruct Z0 as (Dz & Fz & Rz).
    rewrite (eqb_num f rzero D Dz F Fz), (ltb_num rzero f Dz D Fz F), E, Rz.
    destruct (Req_bool_spec r 0) as [->|N]; [rewrite !Rlt_bool_false by lra; reflexivity|].
    destruct (Rlt_bool_spec 0 r) as [P|P]; [rewrite Rlt_bool_false by lra; reflexivity|rewrite Rlt_bool_true by lra; reflexivity].
Qed.
