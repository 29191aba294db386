(** Coq's SpecFloat operations on binary64 are Flocq's operations, whose
    results are the roundings of the exact results. *)
From Coq Require Import ZArith Reals Bool SpecFloat Lia Lra.
From Flocq Require Import Core IEEE754.BinarySingleNaN.
Local Open Scope Z_scope.

Global Instance Hprec : FLX.Prec_gt_0 53 := eq_refl _.
Global Instance Hmax : Prec_lt_emax 53 1024 := eq_refl _.
Notation double := (binary_float 53 1024).
Notation fexp64 := (SpecFloat.fexp 53 1024).
Notation rnd := (round radix2 fexp64 ZnearestE).

Lemma round_nearest_even_equiv : forall s m l, round_nearest_even m l = choice_mode mode_NE s m l.
Proof.
  intros s m l. case l; [reflexivity|intro c]. case c; [|reflexivity..].
  now simpl; unfold Round.cond_incr; case Z.even.
Qed.
Lemma binary_round_aux_equiv : forall sx mx ex lx,
  SpecFloat.binary_round_aux 53 1024 sx mx ex lx = binary_round_aux 53 1024 mode_NE sx mx ex lx.
Proof.
  intros. unfold SpecFloat.binary_round_aux, binary_round_aux.
  set (mrse' := shr_fexp _ _ _). case mrse'; intros mrs' e'; simpl. now rewrite (round_nearest_even_equiv sx).
Qed.
Lemma binary_round_equiv : forall s m e, SpecFloat.binary_round 53 1024 s m e = binary_round 53 1024 mode_NE s m e.
Proof.
  intros. unfold SpecFloat.binary_round, binary_round, shl_align_fexp.
  set (mez := shl_align _ _ _); case mez as [mz ez]. apply binary_round_aux_equiv.
Qed.
Lemma normalize_B : forall m e szero, SpecFloat.binary_normalize 53 1024 m e szero =
  B2SF (binary_normalize 53 1024 Hprec Hmax mode_NE m e szero).
Proof.
  intros. case m as [|p|p]; [now simpl| |]; simpl; rewrite B2SF_SF2B; apply binary_round_equiv.
Qed.
Lemma mul_B : forall x y : double, SFmul 53 1024 (B2SF x) (B2SF y) = B2SF (Bmult mode_NE x y).
Proof.
  intros [sx|sx| |sx mx ex Bx] [sy|sy| |sy my ey By]; try reflexivity.
  simpl. rewrite B2SF_SF2B. apply binary_round_aux_equiv.
Qed.
Lemma add_B : forall x y : double, SFadd 53 1024 (B2SF x) (B2SF y) = B2SF (Bplus mode_NE x y).
Proof.
  intros [sx|sx| |sx mx ex Bx] [sy|sy| |sy my ey By]; try (now (trivial || simpl; case Bool.eqb)).
  apply normalize_B.
Qed.
Lemma sub_B : forall x y : double, SFsub 53 1024 (B2SF x) (B2SF y) = B2SF (Bminus mode_NE x y).
Proof.
  intros [sx|sx| |sx mx ex Bx] [sy|sy| |sy my ey By]; try (now (trivial || simpl; case Bool.eqb)).
  simpl. unfold Zminus. rewrite <- cond_Zopp_negb. apply normalize_B.
Qed.
Lemma div_B : forall x y : double, SFdiv 53 1024 (B2SF x) (B2SF y) = B2SF (Bdiv mode_NE x y).
Proof.
  intros [sx|sx| |sx mx ex Bx] [sy|sy| |sy my ey By]; try (now (trivial || simpl; case Bool.eqb)).
  simpl. rewrite B2SF_SF2B. set (melz := SFdiv_core_binary _ _ _ _ _ _). case melz as [[mz ez] lz]. apply binary_round_aux_equiv.
Qed.

Lemma double_of : forall f, SpecFloat.valid_binary 53 1024 f = true -> exists x : double, f = B2SF x.
Proof. intros f V. exists (SF2B f V). symmetry. apply B2SF_SF2B. Qed.
Lemma valid_B : forall x : double, SpecFloat.valid_binary 53 1024 (B2SF x) = true.
Proof. intros x. apply valid_binary_B2SF. Qed.

Lemma add_valid : forall x y, SpecFloat.valid_binary 53 1024 x = true -> SpecFloat.valid_binary 53 1024 y = true ->
  SpecFloat.valid_binary 53 1024 (SFadd 53 1024 x y) = true.
Proof. intros x y X Y. destruct (double_of _ X) as [a ->]. destruct (double_of _ Y) as [b ->]. rewrite add_B. apply valid_B. Qed.
Lemma sub_valid : forall x y, SpecFloat.valid_binary 53 1024 x = true -> SpecFloat.valid_binary 53 1024 y = true ->
  SpecFloat.valid_binary 53 1024 (SFsub 53 1024 x y) = true.
Proof. intros x y X Y. destruct (double_of _ X) as [a ->]. destruct (double_of _ Y) as [b ->]. rewrite sub_B. apply valid_B. Qed.
Lemma mul_valid : forall x y, SpecFloat.valid_binary 53 1024 x = true -> SpecFloat.valid_binary 53 1024 y = true ->
  SpecFloat.valid_binary 53 1024 (SFmul 53 1024 x y) = true.
Proof. intros x y X Y. destruct (double_of _ X) as [a ->]. destruct (double_of _ Y) as [b ->]. rewrite mul_B. apply valid_B. Qed.
Lemma div_valid : forall x y, SpecFloat.valid_binary 53 1024 x = true -> SpecFloat.valid_binary 53 1024 y = true ->
  SpecFloat.valid_binary 53 1024 (SFdiv 53 1024 x y) = true.
Proof. intros x y X Y. destruct (double_of _ X) as [a ->]. destruct (double_of _ Y) as [b ->]. rewrite div_B. apply valid_B. Qed.
Lemma opp_valid : forall x, SpecFloat.valid_binary 53 1024 x = true -> SpecFloat.valid_binary 53 1024 (SFopp x) = true.
Proof. now intros []. Qed.
Lemma normalize_valid : forall m e s, SpecFloat.valid_binary 53 1024 (SpecFloat.binary_normalize 53 1024 m e s) = true.
Proof. intros. rewrite normalize_B. apply valid_B. Qed.

(** The double nearest to an integer. *)
Lemma normalize_not_nan : forall m e s, SpecFloat.binary_normalize 53 1024 m e s <> S754_nan.
Proof.
  intros m e s. rewrite normalize_B. pose proof (binary_normalize_correct 53 1024 Hprec Hmax mode_NE m e s) as H.
  cbv zeta in H. destruct (Rlt_bool _ _).
  - destruct H as (_ & F & _). destruct (binary_normalize _ _ _ _ _ _ _ _); cbn in *; congruence.
  - rewrite H. discriminate.
Qed.

Local Open Scope R_scope.
Lemma format_Z : forall z : Z, (Z.abs z <= 2 ^ 53)%Z -> generic_format radix2 fexp64 (IZR z).
Proof.
  intros z H. apply (FLT.generic_format_FLT radix2 (3 - 1024 - 53) 53). 
  destruct (Z.eq_dec (Z.abs z) (2 ^ 53)) as [E|E].
  - exists (Float radix2 (Z.sgn z * 2 ^ 52) 1); cbn [Fnum Fexp]; [| |lia].
    + unfold F2R; cbn [Fnum Fexp]. change (bpow radix2 1) with 2. rewrite <- mult_IZR. f_equal.
      destruct z; cbn [Z.sgn Z.abs] in *; lia.
    + rewrite Z.abs_mul. change (Z.abs (2 ^ 52)) with (2 ^ 52)%Z. change (radix2 ^ 53)%Z with (2 ^ 53)%Z. destruct z; cbn [Z.sgn Z.abs]; lia.
  - exists (Float radix2 z 0); cbn [Fnum Fexp]; [| |lia].
    + unfold F2R; cbn. ring.
    + change (radix2 ^ 53)%Z with (2 ^ 53)%Z. lia.
Qed.
Lemma round_Z : forall z : Z, (Z.abs z <= 2 ^ 53)%Z -> rnd (IZR z) = IZR z.
Proof. intros z H. apply round_generic; [typeclasses eauto|now apply format_Z]. Qed.

Lemma IZR_abs_le : forall z m : Z, (Z.abs z <= m)%Z -> Rabs (IZR z) <= IZR m.
Proof. intros z m H. rewrite <- abs_IZR. now apply IZR_le. Qed.
Lemma bpow_Z : forall e : Z, (0 <= e)%Z -> bpow radix2 e = IZR (2 ^ e).
Proof. intros e H. rewrite <- (IZR_Zpower radix2 e H). reflexivity. Qed.
Global Instance mono64 : Monotone_exp fexp64.
Proof. exact (fexp_monotone 53 1024). Qed.
Global Instance valid64 : Valid_exp fexp64.
Proof. exact (fexp_correct 53 1024 Hprec). Qed.

(** Conversion of an integer of 64 bits. *)
Lemma ofZ_B : forall z : Z, (Z.abs z <= 2 ^ 63)%Z -> exists x : double, SpecFloat.binary_normalize 53 1024 z 0 false = B2SF x /\
  is_finite x = true /\ B2R x = rnd (IZR z).
Proof.
  intros z Hz. exists (binary_normalize 53 1024 Hprec Hmax mode_NE z 0 false). split; [apply normalize_B|].
  pose proof (binary_normalize_correct 53 1024 Hprec Hmax mode_NE z 0 false) as H. cbv zeta in H.
  replace (F2R (Float radix2 z 0)) with (IZR z) in H by (unfold F2R; cbn; ring).
  rewrite Rlt_bool_true in H; [split; apply H|].
  apply Rle_lt_trans with (bpow radix2 63).
  - apply (abs_round_le_generic radix2 fexp64 (round_mode mode_NE) (IZR z) (bpow radix2 63)); [apply generic_format_bpow; cbn; lia|].
    rewrite bpow_Z by lia. now apply IZR_abs_le.
  - apply bpow_lt. lia.
Qed.
Lemma ofZ_exact : forall z : Z, (Z.abs z <= 2 ^ 53)%Z -> exists x : double, SpecFloat.binary_normalize 53 1024 z 0 false = B2SF x /\
  is_finite x = true /\ B2R x = IZR z.
Proof.
  intros z Hz. destruct (ofZ_B z) as (x & E & F & V); [lia|]. exists x. rewrite round_Z in V by lia. auto.
Qed.

(** Multiplication by one and by minus one. *)
Lemma Bmult_unit : forall (c x : double), is_finite c = true -> (B2R c = 1 \/ B2R c = -1) ->
  B2SF (Bmult mode_NE c x) = (if Bsign c then SFopp (B2SF x) else B2SF x).
Proof.
  intros c x Fc Vc.
  destruct x as [s|s| |s m e H].
  1,2: destruct c as [sc|sc| |sc mc ec Hc]; cbn in Fc; try discriminate;
    [exfalso; cbn in Vc; destruct Vc; lra|destruct sc, s; reflexivity].
  1: destruct c as [[]|[]| |[] mc ec Hc]; cbn in Fc; try discriminate; reflexivity.
  set (x := B754_finite s m e H).
  assert (Vx : is_finite x = true) by reflexivity.
  pose proof (Bmult_correct 53 1024 Hprec Hmax mode_NE c x) as M.
  assert (Sc : Bsign c = true -> B2R c = -1).
  { destruct Vc as [V|V]; [|auto]. intros S1. exfalso. destruct c as [sc|sc| |sc mc ec Hc]; cbn [B2R Bsign is_finite cond_Zopp] in *; try discriminate; try lra.
    subst sc. cbn [cond_Zopp Z.opp] in V. pose proof (F2R_le_0 radix2 (Float radix2 (Z.neg mc) ec) ltac:(cbn; lia)). lra. }
  assert (Sc' : Bsign c = false -> B2R c = 1).
  { destruct Vc as [V|V]; [auto|]. intros S1. exfalso. destruct c as [sc|sc| |sc mc ec Hc]; cbn [B2R Bsign is_finite cond_Zopp] in *; try discriminate; try lra.
    subst sc. cbn [cond_Zopp Z.opp] in V. pose proof (F2R_ge_0 radix2 (Float radix2 (Z.pos mc) ec) ltac:(cbn; lia)). lra. }
  assert (E : round radix2 fexp64 (round_mode mode_NE) (B2R c * B2R x) = B2R c * B2R x).
  { apply round_generic; [typeclasses eauto|]. pose proof (generic_format_B2R 53 1024 x) as G.
    destruct Vc as [-> | ->]; [rewrite Rmult_1_l; exact G|].
    replace (-1 * B2R x) with (- B2R x) by ring. now apply generic_format_opp. }
  rewrite E in M.
  rewrite Rlt_bool_true in M.
  2:{ rewrite Rabs_mult. replace (Rabs (B2R c)) with 1 by (destruct Vc as [-> | ->]; [rewrite Rabs_R1; reflexivity|rewrite Rabs_left by lra; lra]).
      rewrite Rmult_1_l. apply abs_B2R_lt_emax. }
  destruct M as (MR & MF & MS). rewrite Fc, Vx in MF. cbn in MF.
  assert (Nn : is_nan (Bmult mode_NE c x) = false) by (destruct (Bmult mode_NE c x); cbn in MF |- *; congruence || reflexivity).
  specialize (MS Nn).
  destruct (Bsign c) eqn:Bc.
  - replace (SFopp (B2SF x)) with (B2SF (Bopp x)) by reflexivity. f_equal. apply B2R_Bsign_inj; auto.
    + rewrite MR, (Sc eq_refl), B2R_Bopp. ring.
  - f_equal. apply B2R_Bsign_inj; auto.
    + rewrite MR, (Sc' eq_refl). ring.
    + rewrite MS. apply xorb_false_l.
Qed.
Lemma mul_unit : forall c x, SpecFloat.valid_binary 53 1024 x = true ->
  (c = 1 -> SFmul 53 1024 (SpecFloat.binary_normalize 53 1024 c 0 false) x = x)%Z /\
  (c = -1 -> SFmul 53 1024 (SpecFloat.binary_normalize 53 1024 c 0 false) x = SFopp x)%Z.
Proof.
  intros c x V. destruct (double_of _ V) as [d ->].
  assert (H : forall c, (Z.abs c = 1)%Z -> SFmul 53 1024 (SpecFloat.binary_normalize 53 1024 c 0 false) (B2SF d) =
    if (c <? 0)%Z then SFopp (B2SF d) else B2SF d).
  { intros k Hk. destruct (ofZ_exact k) as (y & E & F & R); [lia|]. rewrite E, mul_B, Bmult_unit; auto.
    - assert (Hs : Bsign y = (k <? 0)%Z); [|now rewrite Hs].
      assert (Hk' : (k = 1 \/ k = -1)%Z) by lia. apply (f_equal (fun f => match f with S754_finite s _ _ | S754_zero s => s | _ => false end)) in E.
      destruct Hk' as [-> | ->]; cbn in E; destruct y as [s|s| |s m e Hy]; cbn in E, F |- *; congruence.
    - assert (Hk' : (k = 1 \/ k = -1)%Z) by lia. rewrite R. destruct Hk' as [-> | ->]; auto. }
  split; intros ->; now rewrite H.
Qed.
Lemma mul_unit_r : forall x, SpecFloat.valid_binary 53 1024 x = true ->
  SFmul 53 1024 x (SpecFloat.binary_normalize 53 1024 1 0 false) = x.
Proof.
  intros x V. rewrite <- (proj1 (mul_unit 1 x V) eq_refl) at 2.
  destruct (double_of _ V) as [d ->]. destruct (ofZ_exact 1) as (y & E & F & R); [lia|]. rewrite E. 
  clear. destruct y as [sy|sy| |sy my ey Hy], d as [sd|sd| |sd md ed Hd]; cbn; rewrite ?(xorb_comm sd sy); try reflexivity.
  f_equal; [f_equal; apply Pos.mul_comm|apply Z.add_comm].
Qed.
Lemma add_zero_r : forall x s, (forall b, x <> S754_zero b) -> SFadd 53 1024 x (S754_zero s) = x.
Proof. intros [b|b| |b m e] s N; try reflexivity. now elim (N b). Qed.
Lemma add_zero_l : forall x s, (forall b, x <> S754_zero b) -> SFadd 53 1024 (S754_zero s) x = x.
Proof. intros [b|b| |b m e] s N; try reflexivity. now elim (N b). Qed.

Lemma ofZ_zero : forall z : Z, (Z.abs z <= 2 ^ 63)%Z ->
  SFeqb (SpecFloat.binary_normalize 53 1024 z 0 false) (S754_zero false) = (z =? 0)%Z.
Proof.
  intros z R. destruct (Z.eqb_spec z 0) as [->|N]; [reflexivity|].
  destruct (ofZ_B z R) as (x & E & F & V). rewrite E.
  destruct x as [s|s| |s m e H]; cbn in F; try discriminate; [|now destruct s].
  exfalso. cbn in V.
  assert (K : generic_format radix2 fexp64 (IZR (Z.sgn z))) by (apply format_Z; lia).
  destruct (Z_lt_le_dec z 0) as [L|L].
  - assert (Q : rnd (IZR z) <= IZR (Z.sgn z)) by (apply round_le_generic; try typeclasses eauto; [exact K|apply IZR_le; lia]).
    rewrite <- V in Q. apply (le_IZR 0) in Q. lia.
  - assert (Q : IZR (Z.sgn z) <= rnd (IZR z)) by (apply round_ge_generic; try typeclasses eauto; [exact K|apply IZR_le; lia]).
    rewrite <- V in Q. apply (le_IZR _ 0) in Q. lia.
Qed.
