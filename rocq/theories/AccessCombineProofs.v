(** Composition and equality of access functions. *)
From Coq Require Import ZArith List Bool Lia ZifyBool.
From Verif Require Import RangeModel MDRangeModel Result BoxSetModel AccessModel Spec AccessSpec
  RangeProofs MDRangeProofs BoxListProofs BoxSetProofs AccessProofs AccessImageProofs
  AccessInverseProofs AccessPreimageProofs ListTac.
Import ListNotations.
Open Scope Z_scope.

Lemma plain_le : forall n n' a, (n <= n')%nat -> plain n a -> plain n' a.
Proof. intros n n' a L. induction a; cbn; intros H; try tauto. lia. Qed.

Lemma plain_affine_b : forall n a, plain n a -> da_isAffine a = true.
Proof.
  intros n. induction a; cbn; intros H; try reflexivity; try tauto;
    destruct H as (H1 & H2); now rewrite IHa1, IHa2.
Qed.
Lemma plains_affine_b : forall n rs, Forall (plain n) rs -> forallb da_isAffine rs = true.
Proof.
  intros n rs H. apply forallb_forall. rewrite Forall_forall in H. intros a Ha. apply (plain_affine_b n). auto.
Qed.

Section Mlir.
Variable m : mlir.
Hypothesis M : mlir_ok m.

Lemma plain_isAffine : forall n k f, plain_af n k f -> af_isAffine f = true.
Proof.
  intros n k f (W & K & P). destruct f; cbn in *; try reflexivity; now apply (plains_affine_b n).
Qed.

(** The affine map of a plain function. *)
Lemma plain_map_of : forall n k f, plain_af n k f ->
  exists es, af_map_of m f = Ok es /\ length es = k /\ Forall no_div es /\ Forall (dims_below n) es /\
    forall p q, fval f p = Some q -> affine_values p es = Some q.
Proof.
  intros n k f (W & K & P). destruct f as [|n' rs|n' rs|n' rs|n' rs]; cbn [af_map_of fval af_wf] in *.
  - destruct P.
  - destruct W as (-> & L & F & _). exists rs. split; [reflexivity|]. split; [assumption|].
    split; [|split; [|auto]]; (eapply Forall_impl; [|exact F]); intros e He; apply (const_nodiv n e He).
  - destruct W as (-> & L & _). destruct (das_affine_plain m M n rs P) as (es & -> & N & D & L' & V).
    exists es. repeat split; auto; lia.
  - destruct W as (-> & L & _ & _ & F). exists rs. split; [reflexivity|]. split; [assumption|].
    split; [|split; [|auto]]; (eapply Forall_impl; [|exact F]); intros e He; apply (roto_expr_nodiv n e He).
  - destruct W as (-> & L & _). destruct (das_affine_plain m M n rs P) as (es & -> & N & D & L' & V).
    exists es. repeat split; auto; lia.
Qed.

Lemma withDims_plain : forall n k f j, plain_af n k f -> (n <= j)%nat ->
  exists g, af_withDims m f j = Ok g /\ plain_af j k g /\
    forall p q, fval f p = Some q -> fval g p = Some q.
Proof.
  intros n k f j P L. pose proof P as (W & K & PP).
  destruct f as [|n' rs|n' rs|n' rs|n' rs]; cbn [af_withDims af_wf] in *.
  - destruct PP.
  - destruct W as (-> & Lk & F & _). replace (Nat.max n j) with j by lia. rewrite <- Lk.
    apply (build_map_plain m M).
    + eapply Forall_impl; [|exact F]; intros e He; apply (const_nodiv n e He).
    + eapply Forall_impl; [|exact F]; intros e He; apply (const_nodiv j e He).
    + intros ->. cbn in Lk. lia.
  - destruct W as (-> & Lk & _). replace (Nat.max j n) with j by lia. rewrite <- Lk.
    apply (build_plain m M).
    + eapply Forall_impl; [|exact PP]. intros a. apply (plain_le n); lia.
    + intros ->. cbn in Lk. lia.
  - destruct W as (-> & Lk & _ & _ & F). replace (Nat.max n j) with j by lia. rewrite <- Lk.
    apply (build_map_plain m M).
    + eapply Forall_impl; [|exact F]; intros e He; apply (roto_expr_nodiv n e He).
    + eapply Forall_impl; [|exact F]; intros e He. apply (dims_below_le n); [lia|]. apply (roto_expr_nodiv n e He).
    + intros ->. cbn in Lk. lia.
  - destruct W as (-> & Lk & _). replace (Nat.max j n) with j by lia. rewrite <- Lk.
    apply (build_plain m M).
    + eapply Forall_impl; [|exact PP]. intros a. apply (plain_le n); lia.
    + intros ->. cbn in Lk. lia.
Qed.

Lemma asubst_plain : forall n l e, Forall no_div l -> Forall (dims_below n) l ->
  no_div e -> dims_below (length l) e ->
  exists e', asubst m l e = Ok e' /\ no_div e' /\ dims_below n e' /\
    forall p q v, affine_values p l = Some q -> aeval q e = Some v -> aeval p e' = Some v.
Proof.
  intros n l e N D. induction e; cbn [no_div dims_below asubst]; intros He De; try tauto.
  - destruct (nth_error_some _ l d De) as (x & Hx). rewrite Hx. exists x. split; [reflexivity|].
    rewrite Forall_forall in N, D. pose proof (nth_error_In _ _ Hx) as I.
    split; [auto|]. split; [auto|]. intros p q v Hq Hv. cbn in Hv.
    apply values_nth in Hq as (_ & Hq). destruct (Hq d x Hx) as (w & Hw & Ew). congruence.
  - exists (AConst c). repeat split; auto.
  - destruct He as (H1 & H2), De as (D1 & D2).
    destruct (IHe1 H1 D1) as (x & -> & Nx & Dx & Vx), (IHe2 H2 D2) as (y & -> & Ny & Dy & Vy).
    cbn [bind]. eexists. split; [reflexivity|]. split; [apply (canon_nodiv m M); cbn; auto|].
    split; [apply (canon_dims m M); cbn; auto|]. intros p q v Hq Hv. cbn in Hv.
    destruct (aeval q e1) as [u1|] eqn:E1; [|discriminate]. destruct (aeval q e2) as [u2|] eqn:E2; [|discriminate].
    apply (canon_eval m M). cbn. now rewrite (Vx p q u1 Hq E1), (Vy p q u2 Hq E2).
  - destruct He as (H1 & H2), De as (D1 & D2).
    destruct (IHe1 H1 D1) as (x & -> & Nx & Dx & Vx), (IHe2 H2 D2) as (y & -> & Ny & Dy & Vy).
    cbn [bind]. eexists. split; [reflexivity|]. split; [apply (canon_nodiv m M); cbn; auto|].
    split; [apply (canon_dims m M); cbn; auto|]. intros p q v Hq Hv. cbn in Hv.
    destruct (aeval q e1) as [u1|] eqn:E1; [|discriminate]. destruct (aeval q e2) as [u2|] eqn:E2; [|discriminate].
    apply (canon_eval m M). cbn. now rewrite (Vx p q u1 Hq E1), (Vy p q u2 Hq E2).
Qed.

Lemma acompose_plain : forall n l es, Forall no_div l -> Forall (dims_below n) l ->
  Forall no_div es -> Forall (dims_below (length l)) es ->
  exists es', acompose m (length l) es l = Ok es' /\ Forall no_div es' /\ Forall (dims_below n) es' /\
    length es' = length es /\
    forall p q r, affine_values p l = Some q -> affine_values q es = Some r -> affine_values p es' = Some r.
Proof.
  intros n l es N D. unfold acompose. rewrite Nat.eqb_refl. cbn [assert_ok bind].
  induction es as [|e es IH]; intros Ne De; cbn.
  - exists []. repeat split; auto.
  - inversion Ne; inversion De; subst.
    destruct (asubst_plain n l e N D H1 H5) as (e' & -> & N' & D' & V').
    destruct (IH H2 H6) as (es' & -> & Ns & Ds & L & Vs). cbn. exists (e' :: es').
    split; [reflexivity|]. split; [now constructor|]. split; [now constructor|]. split; [cbn; congruence|].
    intros p q r Hq Hr. cbn. destruct (aeval q e) as [v|] eqn:Ev; [|discriminate].
    destruct (affine_values q es) as [r'|] eqn:Er; [|discriminate]. injection Hr as <-.
    now rewrite (V' p q v Hq Ev), (Vs p q r' Hq Er).
Qed.

Lemma combine_plain : forall n k n' k' f g, plain_af n k f -> plain_af n' k' g -> (n' <= k)%nat ->
  exists h, af_combine m f g = Ok h /\ plain_af n k' h /\
    forall p q r, fval f p = Some q -> fval g q = Some r -> fval h p = Some r.
Proof.
  intros n k n' k' f g Pf Pg L. unfold af_combine.
  pose proof (wf_results n k f (proj1 Pf)) as Rk. pose proof (wf_dims n k f (proj1 Pf)) as Rn.
  rewrite Rk. destruct (withDims_plain n' k' g k Pg L) as (g' & -> & Pg' & Vg). cbn [bind].
  rewrite (plain_isAffine n k f Pf), (plain_isAffine k k' g' Pg'). cbn [andb].
  destruct (plain_map_of n k f Pf) as (fm & -> & Lf & Nf & Df & Vf).
  destruct (plain_map_of k k' g' Pg') as (gm & -> & Lg & Ng & Dg & Vg'). cbn [bind].
  rewrite (wf_dims k k' g' (proj1 Pg')). rewrite <- Lf in *.
  destruct (acompose_plain n fm gm Nf Df Ng Dg) as (es & -> & Ne & De & Le & Ve). cbn [bind].
  rewrite Rn. rewrite <- Lg, <- Le.
  destruct (build_map_plain m M n es Ne De) as (h & Hh & Ph & Vh).
  { intros ->. destruct Pg' as (_ & K' & _). cbn in Le. lia. }
  exists h. split; [assumption|]. split; [assumption|].
  intros p q r Hq Hr. apply Vh. eapply Ve; eauto.
Qed.

(** * Equality *)

Lemma aexpr_eq_iff : forall a b, aexpr_eq a b = true <-> a = b.
Proof.
  induction a; intros [] ; cbn; try (split; [discriminate|intros X; discriminate X]);
    try (rewrite andb_true_iff, IHa1, IHa2; split; [intros (-> & ->); reflexivity|intros X; injection X as -> ->; auto]).
  - rewrite Nat.eqb_eq. split; congruence.
  - rewrite Z.eqb_eq. split; congruence.
Qed.

Lemma aexprs_eq_iff : forall a b, aexprs_eq a b = true <-> a = b.
Proof.
  induction a as [|x a IH]; intros [|y b]; cbn; try (split; discriminate); [tauto|].
  rewrite andb_true_iff, aexpr_eq_iff, IH. split; [intros (-> & ->); reflexivity|]. intros X. injection X as -> ->. auto.
Qed.

End Mlir.

Lemma da_eq_same : forall a b,
  (forall i s d deps s' deps', In (i, s, d, deps) (iteration_spaces a) ->
     In (i, s', d, deps') (iteration_spaces b) -> s = s' /\ deps = deps') ->
  da_eq a b = true -> a = b.
Proof.
  induction a; intros [] S H; cbn in *; try discriminate;
    try (apply andb_prop in H as (H1 & H2);
         rewrite (IHa1 a) by (try assumption; intros i s0 d0 ds s' ds' X Y; apply (S i s0 d0 ds s' ds'); apply in_or_app; now left);
         rewrite (IHa2 b) by (try assumption; intros i s0 d0 ds s' ds' X Y; apply (S i s0 d0 ds s' ds'); apply in_or_app; now right);
         reflexivity).
  - f_equal. lia.
  - f_equal. now apply Nat.eqb_eq.
  - f_equal. now apply range_eq_iff.
  - apply andb_prop in H as (H1 & H2). apply Nat.eqb_eq in H1 as ->. apply Nat.eqb_eq in H2 as ->.
    destruct (S sid0 space dim0 deps space0 deps0) as (-> & ->); auto.
Qed.

Lemma zip_eq_same : forall a b, length a = length b ->
  (forall i s d deps s' deps', In (i, s, d, deps) (flat_map iteration_spaces a) ->
     In (i, s', d, deps') (flat_map iteration_spaces b) -> s = s' /\ deps = deps') ->
  dacc_zip_eq a b = true -> a = b.
Proof.
  induction a as [|x a IH]; intros [|y b] L S H; cbn in *; try discriminate; [reflexivity|].
  apply andb_prop in H as (H1 & H2). f_equal.
  - apply da_eq_same; [|assumption]. intros i s d ds s' ds' X Y. apply (S i s d ds s' ds'); apply in_or_app; now left.
  - apply IH; [lia| |assumption]. intros i s d ds s' ds' X Y. apply (S i s d ds s' ds'); apply in_or_app; now right.
Qed.

Lemma eq_same : forall f g, af_results f = af_results g -> same_objects f g -> af_eq f g = true ->
  af_dims f = af_dims g /\ forall p, af_map_point f p = af_map_point g p.
Proof.
  intros f g L S H. destruct f as [|n a|n a|n a|n a], g as [|k b|k b|k b|k b]; cbn in *; try discriminate;
    try (apply andb_prop in H as (H1 & H2); apply Nat.eqb_eq in H1 as ->;
         (apply aexprs_eq_iff in H2 as -> || apply zip_eq_same in H2 as ->); auto).
  auto.
Qed.
