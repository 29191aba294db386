(** Proofs about the automatic differentiation. *)
From Coq Require Import List Bool ZArith QArith Reals Ratan Qreals Lra Lia.
From Verif Require Import Result DerModel DerSpec.
Import ListNotations.
Local Open Scope R_scope.

(** ** The power *)
Lemma exp_pow : forall n x, 0 < x -> exp (INR n * ln x) = x ^ n.
Proof. intros n x X. change (Rpower x (INR n) = x ^ n). now apply Rpower_pow. Qed.
Lemma pow_zero_pos : forall n, 0 < INR n -> 0 ^ n = 0.
Proof. intros [|n] H; [cbn in H; lra|]. cbn. ring. Qed.
Lemma rpow_unique : forall x y a b, rpow x y a -> rpow x y b -> a = b.
Proof.
  assert (NN : forall n m, INR n = - INR m -> n = 0%nat /\ m = 0%nat).
  { intros n m H. pose proof (pos_INR n). pose proof (pos_INR m). split; apply INR_eq; cbn [INR]; lra. }
  assert (PN : forall x n, 0 < x -> exp (- INR n * ln x) = / x ^ n).
  { intros x n X. rewrite <- exp_pow by auto. rewrite <- exp_Ropp. f_equal. ring. }
  assert (N0 : forall n, INR n = 0 -> n = 0%nat) by (intros n H; apply INR_eq; cbn [INR]; exact H).
  intros x y a b A B. destruct A as [x y X|x n|x n X|y Y]; inversion B; subst; try reflexivity.
  - now rewrite exp_pow.
  - now rewrite PN.
  - lra.
  - now rewrite exp_pow.
  - match goal with H : INR _ = INR _ |- _ => apply INR_eq in H; now subst end.
  - match goal with H : _ = INR n |- _ => symmetry in H; destruct (NN _ _ H) as [-> ->] end. cbn. field.
  - now rewrite pow_zero_pos.
  - now rewrite PN.
  - match goal with H : INR _ = - INR n |- _ => destruct (NN _ _ H) as [-> ->] end. cbn. field.
  - match goal with H : - INR _ = - INR n |- _ => assert (K : INR n0 = INR n) by lra; apply INR_eq in K; now subst end.
  - congruence.
  - lra.
  - now rewrite pow_zero_pos.
  - congruence.
Qed.
Definition is_nat (y : R) : bool := if Req_EM_T y (INR (Z.to_nat (Int_part y))) then true else false.
Lemma is_nat_spec : forall y, is_nat y = true <-> exists n, y = INR n.
Proof.
  intros y. unfold is_nat. destruct (Req_EM_T y (INR (Z.to_nat (Int_part y)))) as [E|E].
  - split; auto. intros _. eexists. exact E.
  - split; [discriminate|]. intros (n & ->). exfalso. apply E. rewrite INR_IZR_INZ. rewrite INR_IZR_INZ. f_equal.
    assert (Int_part (IZR (Z.of_nat n)) = Z.of_nat n) as ->; [|now rewrite Nat2Z.id].
    symmetry. destruct (base_Int_part (IZR (Z.of_nat n))) as [B1 B2].
    apply le_IZR in B1. assert (IZR (Int_part (IZR (Z.of_nat n))) > IZR (Z.of_nat n) - 1) by lra.
    rewrite <- minus_IZR in H. apply Rgt_lt, lt_IZR in H. lia.
Qed.
Definition rpow_ev (x y : R) : option R :=
  if Rlt_dec 0 x then Some (exp (y * ln x))
  else if is_nat y then Some (x ^ Z.to_nat (Int_part y))
  else if is_nat (- y) then if Req_EM_T x 0 then None else Some (/ x ^ Z.to_nat (Int_part (- y)))
  else if Req_EM_T x 0 then if Rlt_dec 0 y then Some 0 else None
  else None.
Lemma rpow_ev_spec : forall x y w, rpow_ev x y = Some w <-> rpow x y w.
Proof.
  assert (IP : forall y, is_nat y = true -> y = INR (Z.to_nat (Int_part y))).
  { intros y H. unfold is_nat in H. destruct (Req_EM_T y (INR (Z.to_nat (Int_part y)))); [auto|discriminate]. }
  assert (S : forall x y w, rpow_ev x y = Some w -> rpow x y w).
  { intros x y w. unfold rpow_ev. destruct (Rlt_dec 0 x); [intros H; inversion H; now constructor|].
    destruct (is_nat y) eqn:N; [intros H; inversion H; subst; pose proof (IP y N) as E; rewrite E at 1; constructor|].
    destruct (is_nat (- y)) eqn:N'.
    - destruct (Req_EM_T x 0); [discriminate|]. intros H; inversion H; subst. pose proof (IP _ N') as E.
      replace y with (- INR (Z.to_nat (Int_part (- y)))) at 1 by lra. now constructor.
    - destruct (Req_EM_T x 0); [|discriminate]. destruct (Rlt_dec 0 y); [|discriminate]. intros H; inversion H; subst. now constructor. }
  intros x y w. split; [apply S|]. intros H.
  assert (D : rpow_ev x y <> None).
  { unfold rpow_ev. destruct (Rlt_dec 0 x); [discriminate|]. inversion H; subst.
    - lra.
    - assert (is_nat (INR n0) = true) as -> by (apply is_nat_spec; eauto). discriminate.
    - destruct (is_nat (- INR n0)); [discriminate|]. assert (is_nat (- - INR n0) = true) as -> by (apply is_nat_spec; exists n0; ring).
      destruct (Req_EM_T x 0); [contradiction|discriminate].
    - destruct (is_nat y); [discriminate|]. destruct (is_nat (- y)) eqn:N.
      + apply is_nat_spec in N as (k & N). pose proof (pos_INR k). lra.
      + destruct (Req_EM_T 0 0); [|congruence]. destruct (Rlt_dec 0 y); [discriminate|lra]. }
  destruct (rpow_ev x y) as [w'|] eqn:E; [|congruence]. f_equal. apply (rpow_unique x y); auto.
Qed.

(** ** A computed value *)
Definition dec_ev {P Q} (d : {P} + {Q}) (w : R) : option R := if d then Some w else None.
Definition rfun_ev (f : xfun) (x : R) : option R :=
  match f with
  | XAcos => if Rle_dec (-1) x then dec_ev (Rle_dec x 1) (acos x) else None
  | XAsin => if Rle_dec (-1) x then dec_ev (Rle_dec x 1) (asin x) else None
  | XAtan => Some (atan x) | XCos => Some (cos x) | XCosh => Some (cosh x) | XExp => Some (exp x)
  | XLog => dec_ev (Rlt_dec 0 x) (ln x) | XLog10 => dec_ev (Rlt_dec 0 x) (ln x / ln 10)
  | XSin => Some (sin x) | XSinh => Some (sinh x) | XSqrt => dec_ev (Rle_dec 0 x) (sqrt x)
  | XTan => if Req_EM_T (cos x) 0 then None else Some (tan x) | XTanh => Some (tanh x)
  end.
Lemma rfun_ev_spec : forall f x w, rfun_ev f x = Some w <-> rfun f x w.
Proof.
  intros f x w. split.
  - destruct f; cbn; unfold dec_ev; repeat (match goal with |- context [if ?d then _ else _] => destruct d end); intros H; inversion H; subst; constructor; auto.
  - intros H. destruct H; cbn; unfold dec_ev; repeat (match goal with |- context [if ?d then _ else _] => destruct d end); auto; try lra; contradiction.
Qed.
Lemma atan2_right_up : forall y x, 0 < x -> 0 < y -> atan (y / x) = PI / 2 - atan (x / y).
Proof. intros y x X Y. rewrite <- atan_inv; [f_equal; field; lra|]. apply Rmult_lt_0_compat; auto. now apply Rinv_0_lt_compat. Qed.
Lemma atan2_right_down : forall y x, 0 < x -> y < 0 -> atan (y / x) = - (PI / 2) - atan (x / y).
Proof.
  intros y x X Y. replace (y / x) with (- ((- y) / x)) by (field; lra). rewrite atan_opp, (atan2_right_up (- y) x) by lra.
  replace (x / y) with (- (x / - y)) by (field; lra). rewrite atan_opp. ring.
Qed.
Definition ratan2_ev (y x : R) : option R :=
  if Rlt_dec 0 x then Some (atan (y / x)) else if Rlt_dec 0 y then Some (PI / 2 - atan (x / y)) else dec_ev (Rlt_dec y 0) (- (PI / 2) - atan (x / y)).
Lemma ratan2_ev_spec : forall y x w, ratan2_ev y x = Some w <-> ratan2 y x w.
Proof.
  intros y x w. split.
  - unfold ratan2_ev, dec_ev. destruct (Rlt_dec 0 x); [|destruct (Rlt_dec 0 y); [|destruct (Rlt_dec y 0)]]; intros H; inversion H; subst; now constructor.
  - unfold ratan2_ev, dec_ev. intros H. destruct H; destruct (Rlt_dec 0 x); try lra; auto.
    + f_equal. now apply atan2_right_up.
    + destruct (Rlt_dec 0 y); [auto|lra].
    + f_equal. now apply atan2_right_down.
    + destruct (Rlt_dec 0 y); [lra|]. destruct (Rlt_dec y 0); [auto|lra].
Qed.
Definition rop_ev (o : xop) (x y : R) : option R :=
  match o with
  | XAdd => Some (x + y) | XSub => Some (x - y) | XMul => Some (x * y)
  | XDiv => if Req_EM_T y 0 then None else Some (x / y) | XPow => rpow_ev x y
  end.
Lemma rop_ev_spec : forall o x y w, rop_ev o x y = Some w <-> rop o x y w.
Proof.
  intros o x y w. split.
  - destruct o; cbn; intros H; [inversion H; constructor|inversion H; constructor|inversion H; constructor| |constructor; now apply rpow_ev_spec].
    destruct (Req_EM_T y 0); inversion H; subst; now constructor.
  - intros H. destruct H; cbn; auto; [destruct (Req_EM_T y 0); [contradiction|auto]|now apply rpow_ev_spec].
Qed.
Definition ob {X Y} (o : option X) (f : X -> option Y) : option Y := match o with Some x => f x | None => None end.
Section Ev.
Variables (var glob : nat -> R) (time : R).
Fixpoint sum_ev (g : Z -> option R) (is : list Z) : option R :=
  match is with [] => Some 0 | i :: is => ob (g i) (fun x => ob (sum_ev g is) (fun s => Some (x + s))) end.
Fixpoint xev (ind : nat -> Z) (e : xexpr) : option R :=
  match e with
  | XConst q => Some (Q2R q) | XTime => Some time | XInd k => Some (IZR (ind k)) | XVar v => Some (var v) | XGlobal v => Some (glob v)
  | XNeg e => ob (xev ind e) (fun x => Some (- x))
  | XBin _ o l r => ob (xev ind l) (fun x => ob (xev ind r) (fun y => rop_ev o x y))
  | XFun f e => ob (xev ind e) (rfun_ev f)
  | XAtan2 y x => ob (xev ind y) (fun vy => ob (xev ind x) (fun vx => ratan2_ev vy vx))
  | XRed XSum is k e => sum_ev (fun i => xev (put ind k i) e) is
  | XRed XOther _ _ _ => None
  end.
Lemma ob_some : forall X Y (o : option X) (f : X -> option Y) w, ob o f = Some w <-> exists x, o = Some x /\ f x = Some w.
Proof. intros X Y [x|] f w; cbn; split; [intros H; exists x; auto|intros (y & E & H); inversion E; subst; exact H|discriminate|intros (y & E & _); discriminate]. Qed.
Lemma xev_spec : forall e ind w, xev ind e = Some w <-> xval var glob time ind e w.
Proof.
  induction e as [q| |k|v|v|e IH|ew o l IHl r IHr|f e IH|y IHy x IHx|a is k e IH]; intros ind w; cbn [xev].
  1-5: split; intros H; inversion H; subst; constructor.
  - rewrite ob_some. split; [intros (x & A & B); inversion B; subst; constructor; now apply IH|].
    intros H; inversion H; subst. eexists. split; [apply IH; eassumption|reflexivity].
  - rewrite ob_some. split.
    + intros (x & A & B). apply ob_some in B as (y & B & C). apply (xv_bin _ _ _ ind ew o l r x y); [now apply IHl|now apply IHr|now apply rop_ev_spec].
    + intros H; inversion H; subst. eexists. split; [apply IHl; eassumption|]. apply ob_some. eexists. split; [apply IHr; eassumption|now apply rop_ev_spec].
  - rewrite ob_some. split.
    + intros (x & A & B). apply (xv_fun _ _ _ ind f e x); [now apply IH|now apply rfun_ev_spec].
    + intros H; inversion H; subst. eexists. split; [apply IH; eassumption|now apply rfun_ev_spec].
  - rewrite ob_some. split.
    + intros (vy & A & B). apply ob_some in B as (vx & B & C). apply (xv_atan2 _ _ _ ind y x vy vx); [now apply IHy|now apply IHx|now apply ratan2_ev_spec].
    + intros H; inversion H; subst. eexists. split; [apply IHy; eassumption|]. apply ob_some. eexists. split; [apply IHx; eassumption|now apply ratan2_ev_spec].
  - destruct a; [|split; [discriminate|intros H; inversion H]]. revert w. induction is as [|i is IHis]; intros w; cbn [sum_ev].
    + split; [intros H; inversion H; constructor|intros H; now inversion H].
    + rewrite ob_some. split.
      * intros (x & A & B). apply ob_some in B as (s & B & C). inversion C; subst. constructor; [now apply IH|now apply IHis].
      * intros H; inversion H; subst. eexists. split; [apply IH; eassumption|]. apply ob_some. eexists. split; [apply IHis; eassumption|reflexivity].
Qed.
End Ev.

(** ** Derivatives *)
Lemma near_ext : forall f g s d eps, 0 < eps -> (forall z, s - eps < z < s + eps -> f z = g z) -> derivable_pt_lim f s d -> derivable_pt_lim g s d.
Proof. intros f g s d eps E H D. apply (derivable_pt_lim_locally_ext f g s (s - eps) (s + eps)); auto. lra. Qed.
Lemma near_pos : forall f s d, derivable_pt_lim f s d -> 0 < f s -> exists eps, 0 < eps /\ forall z, s - eps < z < s + eps -> 0 < f z.
Proof.
  intros f s d D P. assert (C : continuity_pt f s) by (apply derivable_continuous_pt; now exists d).
  destruct (C (f s) P) as (a & A & C'). exists a. split; [exact A|]. intros z Z.
  destruct (Req_dec s z) as [->|N]; [exact P|].
  specialize (C' z). cbn in C'. unfold R_dist, D_x, no_cond in C'. assert (K : Rabs (f z - f s) < f s).
  { apply C'. split; [auto|]. apply Rabs_def1; lra. }
  apply Rabs_def2 in K. lra.
Qed.
Lemma near_neg : forall f s d, derivable_pt_lim f s d -> f s < 0 -> exists eps, 0 < eps /\ forall z, s - eps < z < s + eps -> f z < 0.
Proof.
  intros f s d D P. destruct (near_pos (- f)%F s (- d)) as (eps & E & H); [now apply derivable_pt_lim_opp|unfold opp_fct; lra|].
  exists eps. split; auto. intros z Z. specialize (H z Z). unfold opp_fct in H. lra.
Qed.
Lemma near_and : forall s (P Q : R -> Prop), (exists e, 0 < e /\ forall z, s - e < z < s + e -> P z) -> (exists e, 0 < e /\ forall z, s - e < z < s + e -> Q z) ->
  exists e, 0 < e /\ forall z, s - e < z < s + e -> P z /\ Q z.
Proof.
  intros s P Q (a & A & HA) (b & B & HB). exists (Rmin a b). split; [now apply Rmin_pos|]. pose proof (Rmin_l a b). pose proof (Rmin_r a b).
  intros z Z. split; [apply HA|apply HB]; lra.
Qed.
Lemma comp_lim : forall f g s d d', derivable_pt_lim f s d -> derivable_pt_lim g (f s) d' -> derivable_pt_lim (fun z => g (f z)) s (d' * d).
Proof. intros f g s d d' A B. exact (derivable_pt_lim_comp f g s d d' A B). Qed.

Lemma pow_lim : forall f s d n, derivable_pt_lim f s d -> derivable_pt_lim (fun z => f z ^ n) s (INR n * f s ^ Nat.pred n * d).
Proof. intros f s d n H. apply (comp_lim f (fun y => y ^ n)); auto. apply derivable_pt_lim_pow. Qed.
Lemma inv_lim : forall f s d, derivable_pt_lim f s d -> f s <> 0 -> derivable_pt_lim (fun z => / f z) s (- d / (f s * f s)).
Proof.
  intros f s d H N. apply (derivable_pt_lim_ext (div_fct (fct_cte 1) f)); [intros z; unfold div_fct, fct_cte; unfold Rdiv; ring|].
  replace (- d / (f s * f s)) with ((0 * f s - d * fct_cte 1 s) / Rsqr (f s)).
  - apply derivable_pt_lim_div; auto. apply derivable_pt_lim_const.
  - unfold fct_cte, Rsqr. field. auto.
Qed.
Lemma rpow_shift_nat : forall x n w, rpow x (INR n - 1) w -> INR n * w = INR n * x ^ Nat.pred n.
Proof.
  intros x [|n] w H; [cbn; ring|]. f_equal. apply (rpow_unique x (INR (S n) - 1)); auto. rewrite S_INR.
  replace (INR n + 1 - 1) with (INR n) by ring. apply rpow_nat.
Qed.
(** The power with a constant exponent. *)
Lemma root_small : forall a eps, 0 < a -> 0 < eps -> exists b, 0 < b /\ forall x, 0 < x < b -> exp (a * ln x) < eps.
Proof.
  intros a eps A E. exists (exp (ln eps / a)). split; [apply exp_pos|]. intros x (X & B).
  rewrite <- (exp_ln eps) by auto. apply exp_increasing. apply ln_increasing in B; auto. rewrite ln_exp in B.
  apply (Rmult_lt_compat_l a) in B; auto. replace (a * (ln eps / a)) with (ln eps) in B by (field; lra). exact B.
Qed.
Lemma pow_const_lim : forall f g s q d p, derivable_pt_lim f s d ->
  (exists eps, 0 < eps /\ forall z, s - eps < z < s + eps -> rpow (f z) q (g z)) ->
  rpow (f s) (q - 1) p -> derivable_pt_lim g s (p * d * q).
Proof.
  intros f g s q d p D (eps & E & H) HP.
  assert (Hs : rpow (f s) q (g s)) by (apply H; lra).
  destruct (Rtotal_order 0 (f s)) as [P|[P|P]].
  - destruct (near_pos f s d D P) as (e1 & E1 & H1).
    assert (p = exp ((q - 1) * ln (f s))) as -> by (apply (rpow_unique (f s) (q - 1)); [auto|now constructor]).
    destruct (near_and s _ _ (ex_intro _ eps (conj E H)) (ex_intro _ e1 (conj E1 H1))) as (e2 & E2 & H2).
    apply (near_ext (fun z => exp (q * ln (f z))) _ s _ e2 E2).
    + intros z Z. destruct (H2 z Z) as [A B]. apply (rpow_unique (f z) q); [now constructor|auto].
    + replace (exp ((q - 1) * ln (f s)) * d * q) with (exp (q * ln (f s)) * (q * (/ f s * d))).
      * apply (comp_lim (fun z => q * ln (f z)) exp); [|apply derivable_pt_lim_exp].
        apply (derivable_pt_lim_scal (fun z => ln (f z))). apply (comp_lim f ln); auto. now apply derivable_pt_lim_ln.
      * replace ((q - 1) * ln (f s)) with (q * ln (f s) + - ln (f s)) by ring. rewrite exp_plus, exp_Ropp, exp_ln by auto. field. lra.
  - (* the base is zero *)
    assert (C : (exists n, q = INR n) \/ (0 < q /\ ~ exists n, q = INR n)).
    { inversion Hs; subst; try lra; eauto. destruct (is_nat q) eqn:N; [left; now apply is_nat_spec|]. right. split; auto.
      intros (k & K). assert (is_nat q = true) by (apply is_nat_spec; eauto). congruence. }
    destruct C as [(n & ->)|(Q0 & NI)].
    + apply (near_ext (fun z => f z ^ n) g s _ eps E).
      * intros z Z. apply (rpow_unique (f z) (INR n)); [constructor|auto].
      * replace (p * d * INR n) with (INR n * f s ^ Nat.pred n * d); [now apply pow_lim|]. rewrite <- (rpow_shift_nat _ _ _ HP). ring.
    + assert (p = 0 /\ 0 < q - 1) as [-> Q1].
      { rewrite <- P in HP. inversion HP; subst; try lra; auto. exfalso. apply NI. exists (S n). rewrite S_INR. lra. }
      replace (0 * d * q) with 0 by ring.
      assert (G0 : g s = 0). { rewrite <- P in Hs. inversion Hs; subst; auto; try lra. exfalso. apply NI. eauto. }
      assert (GB : forall z, s - eps < z < s + eps -> (f z = 0 /\ g z = 0) \/ (0 < f z /\ g z = f z * exp ((q - 1) * ln (f z)))).
      { intros z Z. specialize (H z Z). assert (L : 0 < f z \/ f z = 0).
        { inversion H; subst; auto.
          - exfalso. apply NI. eauto.
          - exfalso. pose proof (pos_INR n). lra. }
        destruct L as [L|L].
        - right. split; auto. rewrite <- (exp_ln (f z)) at 1 by auto. rewrite <- exp_plus.
          apply (rpow_unique (f z) q); auto. replace (ln (f z) + (q - 1) * ln (f z)) with (q * ln (f z)) by ring. now constructor.
        - left. split; auto. apply (rpow_unique (f z) q); auto. rewrite L. now constructor. }
      intros e Epos. set (M := Rabs d + 1). assert (M1 : 0 < M) by (unfold M; pose proof (Rabs_pos d); lra).
      destruct (root_small (q - 1) (e / M) Q1) as (b & B & RS); [apply Rmult_lt_0_compat; [auto|now apply Rinv_0_lt_compat]|].
      destruct (D 1 Rlt_0_1) as (d1 & D1). assert (C : continuity_pt f s) by (apply derivable_continuous_pt; now exists d).
      destruct (C b B) as (a & A & C').
      assert (MP : 0 < Rmin eps (Rmin d1 a)) by (repeat apply Rmin_pos; auto; apply cond_pos).
      exists (mkposreal _ MP). intros h H0 Hh. cbn [pos] in Hh.
      pose proof (Rmin_l eps (Rmin d1 a)). pose proof (Rmin_r eps (Rmin d1 a)). pose proof (Rmin_l d1 a). pose proof (Rmin_r d1 a).
      assert (Z : s - eps < s + h < s + eps) by (apply Rabs_def2 in Hh; lra).
      rewrite G0. destruct (GB _ Z) as [[_ ->]|[F1 ->]].
      * replace ((0 - 0) / h - 0) with 0 by (field; auto). rewrite Rabs_R0. exact Epos.
      * specialize (D1 h H0 ltac:(lra)).
        replace ((f (s + h) * exp ((q - 1) * ln (f (s + h))) - 0) / h - 0) with ((f (s + h) - f s) / h * exp ((q - 1) * ln (f (s + h)))) by (rewrite <- P; field; auto).
        rewrite Rabs_mult. rewrite (Rabs_pos_eq (exp _)) by (left; apply exp_pos).
        assert (K1 : Rabs ((f (s + h) - f s) / h) < M).
        { unfold M. replace ((f (s + h) - f s) / h) with (((f (s + h) - f s) / h - d) + d) by ring.
          eapply Rle_lt_trans; [apply Rabs_triang|]. lra. }
        assert (K2 : exp ((q - 1) * ln (f (s + h))) < e / M).
        { apply RS. split; auto. specialize (C' (s + h)). cbn in C'. unfold R_dist, D_x, no_cond in C'.
          assert (K : Rabs (f (s + h) - f s) < b).
          { apply C'. split; [split; [auto|lra]|]. replace (s + h - s) with h by ring. lra. }
          apply Rabs_def2 in K. lra. }
        replace e with (M * (e / M)) by (field; lra). apply Rmult_gt_0_lt_compat; auto; apply exp_pos.
  - (* the base is negative *)
    assert (C : (exists n, q = INR n) \/ (exists n, q = - INR n)) by (inversion Hs; subst; try lra; eauto).
    destruct C as [(n & ->)|(n & ->)].
    + apply (near_ext (fun z => f z ^ n) g s _ eps E).
      * intros z Z. apply (rpow_unique (f z) (INR n)); [constructor|auto].
      * replace (p * d * INR n) with (INR n * f s ^ Nat.pred n * d); [now apply pow_lim|]. rewrite <- (rpow_shift_nat _ _ _ HP). ring.
    + destruct (near_neg f s d D P) as (e1 & E1 & H1).
      destruct (near_and s _ _ (ex_intro _ eps (conj E H)) (ex_intro _ e1 (conj E1 H1))) as (e2 & E2 & H2).
      assert (NZ : f s ^ n <> 0) by (apply pow_nonzero; lra).
      apply (near_ext (fun z => / f z ^ n) g s _ e2 E2).
      * intros z Z. destruct (H2 z Z) as [A B]. apply (rpow_unique (f z) (- INR n)); [constructor; lra|auto].
      * assert (p = / f s ^ (S n)) as ->.
        { apply (rpow_unique (f s) (- INR n - 1)); auto. replace (- INR n - 1) with (- INR (S n)) by (rewrite S_INR; ring). constructor. lra. }
        replace (/ f s ^ S n * d * - INR n) with (- (INR n * f s ^ Nat.pred n * d) / (f s ^ n * f s ^ n)).
        -- apply (inv_lim (fun z => f z ^ n)); auto. now apply pow_lim.
        -- destruct n as [|n]; [cbn; field; lra|]. cbn [Nat.pred]. cbn [pow] in *. field.
           split; [|lra]. intros K. apply NZ. rewrite K. ring.
Qed.

(** ** Soundness of the generated derivatives *)
Definition nears (s : R) (P : R -> Prop) : Prop := exists eps, 0 < eps /\ forall z, s - eps < z < s + eps -> P z.
Lemma nears_at : forall s P, nears s P -> P s.
Proof. intros s P (e & E & H). apply H. lra. Qed.
Lemma nears_imp : forall s (P Q : R -> Prop), nears s P -> (forall z, P z -> Q z) -> nears s Q.
Proof. intros s P Q (e & E & H) I. exists e. split; auto. Qed.
Lemma nears_ext : forall f g s d, nears s (fun z => f z = g z) -> derivable_pt_lim f s d -> derivable_pt_lim g s d.
Proof. intros f g s d (e & E & H) D. apply (near_ext f g s d e); auto. Qed.

Lemma add_lim : forall f g s a b, derivable_pt_lim f s a -> derivable_pt_lim g s b -> derivable_pt_lim (fun z => f z + g z) s (a + b).
Proof. intros. now apply (derivable_pt_lim_plus f g). Qed.
Lemma sub_lim : forall f g s a b, derivable_pt_lim f s a -> derivable_pt_lim g s b -> derivable_pt_lim (fun z => f z - g z) s (a - b).
Proof. intros. now apply (derivable_pt_lim_minus f g). Qed.
Lemma mul_lim : forall f g s a b, derivable_pt_lim f s a -> derivable_pt_lim g s b -> derivable_pt_lim (fun z => f z * g z) s (a * g s + f s * b).
Proof. intros. now apply (derivable_pt_lim_mult f g). Qed.
Lemma div_lim : forall f g s a b, derivable_pt_lim f s a -> derivable_pt_lim g s b -> g s <> 0 -> derivable_pt_lim (fun z => f z / g z) s ((a * g s - f s * b) / (g s * g s)).
Proof. intros. replace ((a * g s - f s * b) / (g s * g s)) with ((a * g s - b * f s) / Rsqr (g s)) by (unfold Rsqr; field; auto). now apply (derivable_pt_lim_div f g). Qed.
Lemma const_lim : forall c s, derivable_pt_lim (fun _ => c) s 0.
Proof. intros. apply derivable_pt_lim_const. Qed.

Lemma const_ext : forall f s, (forall z, f z = f s) -> derivable_pt_lim f s 0.
Proof. intros f s H. apply (derivable_pt_lim_ext (fun _ => f s)); [intros z; symmetry; apply H|apply const_lim]. Qed.

Lemma pow_lim_pos : forall f g s a b, derivable_pt_lim f s a -> derivable_pt_lim g s b -> 0 < f s ->
  derivable_pt_lim (fun z => exp (g z * ln (f z))) s (exp (g s * ln (f s)) * (b * ln (f s) + g s * a / f s)).
Proof.
  intros f g s a b A B P. apply (comp_lim (fun z => g z * ln (f z)) exp); [|apply derivable_pt_lim_exp].
  replace (b * ln (f s) + g s * a / f s) with (b * ln (f s) + g s * (/ f s * a)) by (unfold Rdiv; ring).
  apply (mul_lim g (fun z => ln (f z))); auto. apply (comp_lim f ln); auto. now apply derivable_pt_lim_ln.
Qed.
Lemma asin_lim : forall x, -1 < x < 1 -> derivable_pt_lim asin x (/ sqrt (1 - x * x)).
Proof. intros x X. apply (derive_pt_eq_1 asin x _ (derivable_pt_asin x X)). rewrite derive_pt_asin. unfold Rsqr, Rdiv. ring. Qed.
Lemma acos_lim : forall x, -1 < x < 1 -> derivable_pt_lim acos x (- / sqrt (1 - x * x)).
Proof. intros x X. apply (derive_pt_eq_1 acos x _ (derivable_pt_acos x X)). rewrite derive_pt_acos. unfold Rsqr, Rdiv. ring. Qed.
Lemma cosh_pos : forall x, 0 < cosh x.
Proof. intros x. unfold cosh. pose proof (exp_pos x). pose proof (exp_pos (- x)). lra. Qed.
Lemma cosh_sinh : forall x, cosh x * cosh x - sinh x * sinh x = 1.
Proof. intros x. unfold cosh, sinh. assert (exp x * exp (- x) = 1) by (rewrite <- exp_plus, Rplus_opp_r; apply exp_0). nra. Qed.
Lemma tanh_lim : forall x, derivable_pt_lim tanh x (/ (cosh x * cosh x)).
Proof.
  intros x. pose proof (cosh_pos x). replace (/ (cosh x * cosh x)) with ((cosh x * cosh x - sinh x * sinh x) / (cosh x * cosh x)) by (rewrite cosh_sinh; field; lra).
  apply (div_lim sinh cosh); [apply derivable_pt_lim_sinh|apply derivable_pt_lim_cosh|lra].
Qed.
Lemma tan_lim : forall x, cos x <> 0 -> derivable_pt_lim tan x (/ (cos x * cos x)).
Proof.
  intros x N. replace (/ (cos x * cos x)) with ((cos x * cos x - sin x * - sin x) / (cos x * cos x)).
  - apply (div_lim sin cos); [apply derivable_pt_lim_sin|apply derivable_pt_lim_cos|auto].
  - replace (cos x * cos x - sin x * - sin x) with (Rsqr (sin x) + Rsqr (cos x)) by (unfold Rsqr; ring). rewrite sin2_cos2. field. auto.
Qed.
Lemma rpow_ev_two : forall x, rpow_ev x (Q2R (inject_Z 2)) = Some (x * x).
Proof.
  intros x. apply rpow_ev_spec. replace (Q2R (inject_Z 2)) with (INR 2) by (unfold Q2R; cbn; lra).
  replace (x * x) with (x ^ 2) by ring. constructor.
Qed.
Lemma q2r_int : forall z, Q2R (inject_Z z) = IZR z.
Proof. intros z. unfold Q2R. cbn. field. Qed.

Lemma atan2_lim : forall y x g s a b, derivable_pt_lim y s a -> derivable_pt_lim x s b -> nears s (fun z => ratan2 (y z) (x z) (g z)) ->
  derivable_pt_lim g s ((a * x s - y s * b) / (y s * y s + x s * x s)).
Proof.
  intros y x g s a b A B H. pose proof (nears_at _ _ H) as Hs. cbn beta in Hs.
  assert (U : forall yv xv w1 w2, ratan2 yv xv w1 -> ratan2 yv xv w2 -> w1 = w2).
  { intros yv xv w1 w2 H1 H2. apply ratan2_ev_spec in H1, H2. congruence. }
  assert (SQ : forall u v, u <> 0 -> u * u + v * v <> 0).
  { intros u v N. assert (0 < u * u) by (destruct (Rtotal_order u 0) as [K|[K|K]]; nra). nra. }
  assert (C : 0 < x s \/ 0 < y s \/ y s < 0) by (inversion Hs; auto). destruct C as [C|[C|C]].
  - pose proof (near_and s _ _ H (near_pos x s b B C)) as N. assert (Y : x s * x s + y s * y s <> 0) by (apply SQ; lra).
    apply (nears_ext (fun z => atan (y z / x z))).
    + apply (nears_imp _ _ _ N). intros z [R1 R2]. apply (U (y z) (x z)); auto. now constructor.
    + replace ((a * x s - y s * b) / (y s * y s + x s * x s)) with (/ (1 + (y s / x s) ^ 2) * ((a * x s - y s * b) / (x s * x s))).
      * apply (comp_lim (fun z => y z / x z) atan); [apply div_lim; auto; lra|apply derivable_pt_lim_atan].
      * field. repeat split; try lra.
  - pose proof (near_and s _ _ H (near_pos y s a A C)) as N. assert (Y : y s * y s + x s * x s <> 0) by (apply SQ; lra).
    apply (nears_ext (fun z => PI / 2 - atan (x z / y z))).
    + apply (nears_imp _ _ _ N). intros z [R1 R2]. apply (U (y z) (x z)); auto. now constructor.
    + replace ((a * x s - y s * b) / (y s * y s + x s * x s)) with (0 - / (1 + (x s / y s) ^ 2) * ((b * y s - x s * a) / (y s * y s))).
      * apply (sub_lim (fun _ => PI / 2)); [apply const_lim|]. apply (comp_lim (fun z => x z / y z) atan); [apply div_lim; auto; lra|apply derivable_pt_lim_atan].
      * field. repeat split; try lra.
  - pose proof (near_and s _ _ H (near_neg y s a A C)) as N. assert (Y : y s * y s + x s * x s <> 0) by (apply SQ; lra).
    apply (nears_ext (fun z => - (PI / 2) - atan (x z / y z))).
    + apply (nears_imp _ _ _ N). intros z [R1 R2]. apply (U (y z) (x z)); auto. now constructor.
    + replace ((a * x s - y s * b) / (y s * y s + x s * x s)) with (0 - / (1 + (x s / y s) ^ 2) * ((b * y s - x s * a) / (y s * y s))).
      * apply (sub_lim (fun _ => - (PI / 2))); [apply const_lim|]. apply (comp_lim (fun z => x z / y z) atan); [apply div_lim; auto; lra|apply derivable_pt_lim_atan].
      * field. repeat split; try lra.
Qed.

Section Main.
Variables (m : xmode) (var : nat -> R -> R) (glob : nat -> R) (time : R -> R) (s : R).
Hypothesis DOK : derivatives_ok m var s.
Hypothesis TOK : time_ok m time.
Definition ev (ind : nat -> Z) (e : xexpr) (z : R) : option R := xev (fun v => var v z) glob (time z) ind e.
Definition fv (ind : nat -> Z) (e : xexpr) (z : R) : R := match ev ind e z with Some x => x | None => 0 end.
Definition defd (ind : nat -> Z) (e : xexpr) : Prop := nears s (fun z => ev ind e z <> None).
Lemma ev_fv : forall ind e z, ev ind e z <> None -> ev ind e z = Some (fv ind e z).
Proof. intros ind e z H. unfold fv. destruct (ev ind e z); congruence. Qed.
Lemma fv_ev : forall ind e z w, ev ind e z = Some w -> fv ind e z = w.
Proof. intros ind e z w H. unfold fv. now rewrite H. Qed.
Lemma defd_neg : forall ind e, defd ind (XNeg e) -> defd ind e /\ nears s (fun z => fv ind (XNeg e) z = - fv ind e z).
Proof.
  intros ind e H. split; apply (nears_imp _ _ _ H); intros z; unfold fv, ev; cbn [xev]; destruct (xev _ _ _ ind e); cbn; congruence.
Qed.
Lemma defd_bin : forall ind ew o l r, defd ind (XBin ew o l r) -> defd ind l /\ defd ind r /\
  nears s (fun z => rop o (fv ind l z) (fv ind r z) (fv ind (XBin ew o l r) z)).
Proof.
  intros ind ew o l r H. split; [|split]; apply (nears_imp _ _ _ H); intros z; unfold fv, ev; cbn [xev];
    destruct (xev _ _ _ ind l) as [x|]; cbn [ob]; try congruence; destruct (xev _ _ _ ind r) as [y|]; cbn [ob]; try congruence.
  intros N. destruct (rop_ev o x y) as [w|] eqn:E; [now apply rop_ev_spec|congruence].
Qed.
Lemma defd_fun : forall ind f e, defd ind (XFun f e) -> defd ind e /\ nears s (fun z => rfun f (fv ind e z) (fv ind (XFun f e) z)).
Proof.
  intros ind f e H. split; apply (nears_imp _ _ _ H); intros z; unfold fv, ev; cbn [xev]; destruct (xev _ _ _ ind e) as [x|]; cbn [ob]; try congruence.
  intros N. destruct (rfun_ev f x) as [w|] eqn:E; [now apply rfun_ev_spec|congruence].
Qed.
Lemma defd_atan2 : forall ind l r, defd ind (XAtan2 l r) -> defd ind l /\ defd ind r /\
  nears s (fun z => ratan2 (fv ind l z) (fv ind r z) (fv ind (XAtan2 l r) z)).
Proof.
  intros ind l r H. split; [|split]; apply (nears_imp _ _ _ H); intros z; unfold fv, ev; cbn [xev];
    destruct (xev _ _ _ ind l) as [x|]; cbn [ob]; try congruence; destruct (xev _ _ _ ind r) as [y|]; cbn [ob]; try congruence.
  intros N. destruct (ratan2_ev x y) as [w|] eqn:E; [now apply ratan2_ev_spec|congruence].
Qed.
Lemma defd_sum : forall ind i is k e, defd ind (XRed XSum (i :: is) k e) -> defd (put ind k i) e /\ defd ind (XRed XSum is k e) /\
  nears s (fun z => fv ind (XRed XSum (i :: is) k e) z = fv (put ind k i) e z + fv ind (XRed XSum is k e) z).
Proof.
  intros ind i is k e H. split; [|split]; apply (nears_imp _ _ _ H); intros z; unfold fv, ev; cbn [xev sum_ev];
    destruct (xev _ _ _ (put ind k i) e) as [x|]; cbn [ob]; try congruence; destruct (sum_ev _ is); cbn [ob]; congruence.
Qed.
Lemma obind2_some : forall X Y (o : res (option X)) (f : X -> res (option Y)) y, obind2 o f = Ok (Some y) -> exists x, o = Ok (Some x) /\ f x = Ok (Some y).
Proof. intros X Y [[x|]| | ] f y H; cbn in H; try discriminate. now exists x. Qed.

Lemma defd_at : forall ind e, defd ind e -> ev ind e s = Some (fv ind e s).
Proof. intros ind e H. apply ev_fv. exact (nears_at _ _ H). Qed.

Lemma derive_sound : forall e mapped ind e' d, derive m mapped e = Ok (Some e') -> ev ind e' s = Some d -> defd ind e -> derivable_pt_lim (fv ind e) s d.
Proof.
  induction e as [q| |k|v|v|e IH|ew o l IHl r IHr|f e IH|y IHy x IHx|a is k e IH]; intros mapped ind e' d D V N; cbn [derive] in D.
  - inversion D; subst. cbn in V. rewrite q2r_int in V. inversion V; subst. apply const_ext. reflexivity.
  - unfold time_ok in TOK. destruct (is_time m); inversion D; subst; cbn in V; rewrite q2r_int in V; inversion V; subst.
    + apply (derivable_pt_lim_ext id); [intros z; unfold fv, ev, id; cbn; now rewrite TOK|apply derivable_pt_lim_id].
    + apply const_ext. intros z. apply TOK.
  - destruct (is_time m && deps m); [discriminate|]. destruct (mapped k); inversion D; subst. cbn in V. rewrite q2r_int in V. inversion V; subst. apply const_ext. reflexivity.
  - specialize (DOK v). destruct (vder m v) as [v'|].
    + inversion D; subst. cbn in V. inversion V; subst. exact DOK.
    + destruct (unknown_const m); inversion D; subst. cbn in V. rewrite q2r_int in V. inversion V; subst. exact DOK.
  - inversion D; subst. cbn in V. rewrite q2r_int in V. inversion V; subst. apply const_ext. reflexivity.
  - apply obind2_some in D as (d1 & D1 & D). inversion D; subst. destruct (defd_neg ind e N) as [N1 EQ].
    cbn [ev xev] in V. unfold ev in V. cbn [xev] in V. apply ob_some in V as (w & W & V). inversion V; subst.
    apply (nears_ext (fun z => - fv ind e z)); [apply (nears_imp _ _ _ EQ); auto|]. apply (derivable_pt_lim_opp (fv ind e)). now apply (IH mapped ind d1).
  - destruct (defd_bin ind ew o l r N) as (Nl & Nr & EQ). pose proof (defd_at _ _ Nl) as El. pose proof (defd_at _ _ Nr) as Er.
    set (g := fv ind (XBin ew o l r)) in *. unfold ev in El, Er.
    assert (SUB : exists dl dr, derive m mapped l = Ok (Some dl) /\ derive m mapped r = Ok (Some dr)).
    { destruct o, ew; apply obind2_some in D as (dl & Dl & D); apply obind2_some in D as (dr & Dr & D); eauto. }
    destruct SUB as (dl & dr & Dl & Dr).
    assert (Ll : forall w, ev ind dl s = Some w -> derivable_pt_lim (fv ind l) s w) by (intros w W; now apply (IHl mapped ind dl)).
    assert (Lr : forall w, ev ind dr s = Some w -> derivable_pt_lim (fv ind r) s w) by (intros w W; now apply (IHr mapped ind dr)).
    unfold ev in V, Ll, Lr.
    destruct o.
    + assert (D' : ret (XBin ew XAdd dl dr) = Ok (Some e')) by (destruct ew; rewrite Dl, Dr in D; exact D). inversion D'; subst. cbn [xev] in V. apply ob_some in V as (a & A & V). apply ob_some in V as (b & B & V). inversion V; subst.
      apply (nears_ext (fun z => fv ind l z + fv ind r z)); [|apply add_lim; auto].
      apply (nears_imp _ _ _ EQ). intros z R0. now inversion R0.
    + assert (D' : ret (XBin ew XSub dl dr) = Ok (Some e')) by (destruct ew; rewrite Dl, Dr in D; exact D). inversion D'; subst. cbn [xev] in V. apply ob_some in V as (a & A & V). apply ob_some in V as (b & B & V). inversion V; subst.
      apply (nears_ext (fun z => fv ind l z - fv ind r z)); [|apply sub_lim; auto].
      apply (nears_imp _ _ _ EQ). intros z R0. now inversion R0.
    + assert (D' : ret (XBin ew XAdd (XBin ew XMul dl r) (XBin ew XMul l dr)) = Ok (Some e')) by (destruct ew; rewrite Dl, Dr in D; exact D). inversion D'; subst. cbn [xev] in V. rewrite El, Er in V. cbn [ob] in V.
      apply ob_some in V as (a & A & V). apply ob_some in A as (a' & A & A'). inversion A'; subst.
      apply ob_some in V as (b & B & V). apply ob_some in B as (b' & B & B'). inversion B'; subst. inversion V; subst.
      apply (nears_ext (fun z => fv ind l z * fv ind r z)); [|apply mul_lim; auto].
      apply (nears_imp _ _ _ EQ). intros z R0. now inversion R0.
    + destruct ew; rewrite Dl, Dr in D; cbn in D; [discriminate|]. inversion D; subst. unfold xc in V. cbn [xev] in V. rewrite El, Er in V. cbn [ob rop_ev xc] in V.
      cbn [xev ob rop_ev] in V. rewrite rpow_ev_two in V. cbn [ob] in V.
      apply ob_some in V as (c & C & V). apply ob_some in C as (a & A & C). apply ob_some in A as (a' & A & A'). inversion A'; subst.
      apply ob_some in C as (b & B & C). apply ob_some in B as (b' & B & B'). inversion B'; subst. inversion C; subst.
      destruct (Req_EM_T (fv ind r s * fv ind r s) 0) as [Z|Z]; [discriminate|]. inversion V; subst.
      apply (nears_ext (fun z => fv ind l z / fv ind r z)); [|apply div_lim; auto; nra].
      apply (nears_imp _ _ _ EQ). intros z R0. now inversion R0.
    + destruct ew.
      * rewrite Dl, Dr in D. cbn in D. inversion D; subst. cbn [xev] in V. rewrite El, Er in V. cbn [ob] in V.
        apply ob_some in V as (p & P & V). cbn [rop_ev] in P. apply ob_some in V as (t & T & V). inversion V; subst.
        apply ob_some in T as (t1 & T1 & T). apply ob_some in T1 as (b & B & T1). apply ob_some in T1 as (lg & LG & T1). cbn [rop_ev] in T1. inversion T1; subst.
        cbn [rfun_ev] in LG. unfold dec_ev in LG. destruct (Rlt_dec 0 (fv ind l s)) as [PO|PO]; [|discriminate]. inversion LG; subst.
        apply ob_some in T as (t2 & T2 & T). apply ob_some in T2 as (t3 & T3 & T2). apply ob_some in T3 as (a & A & T3). cbn [rop_ev] in T3. inversion T3; subst.
        cbn [rop_ev] in T2. destruct (Req_EM_T (fv ind l s) 0) as [Z|Z]; [discriminate|]. inversion T2; subst. cbn [rop_ev] in T. inversion T; subst.
        assert (p = exp (fv ind r s * ln (fv ind l s))) as ->.
        { apply (rpow_unique (fv ind l s) (fv ind r s)); [now apply rpow_ev_spec|now constructor]. }
        pose proof (near_and s _ _ EQ (near_pos _ s a (Ll a A) PO)) as NN.
        apply (nears_ext (fun z => exp (fv ind r z * ln (fv ind l z)))); [|now apply pow_lim_pos; [apply Ll|apply Lr|]].
        apply (nears_imp _ _ _ NN). intros z [R0 P0]. inversion R0; subst. apply (rpow_unique (fv ind l z) (fv ind r z)); [now constructor|auto].
      * destruct (match r with XConst _ => true | _ => false end) eqn:RC.
        -- destruct r; try discriminate. clear RC. rewrite Dl in D. cbn in D. inversion D; subst. cbn [xev] in V. rewrite El in V. cbn [ob xev rop_ev] in V.
           apply ob_some in V as (t & T & V). apply ob_some in T as (p & P & T). apply ob_some in T as (a & A & T). inversion T; subst. inversion V; subst.
           apply (pow_const_lim (fv ind l) g s (Q2R q) a p); auto.
           ++ apply (nears_imp _ _ _ EQ). intros z R0. inversion R0; subst. auto.
           ++ apply rpow_ev_spec. rewrite <- P. f_equal. rewrite Q2R_minus. f_equal. unfold Q2R. cbn. field.
        -- assert (D' : Ok (Some (XBin false XMul (XBin false XPow l (XBin false XSub r (xc 1)))
              (XBin false XAdd (XBin false XMul r dl) (XBin false XMul (XBin false XMul l (XFun XLog l)) dr)))) = Ok (Some e')).
           { rewrite <- D, Dl, Dr. destruct r; try discriminate; reflexivity. }
           clear D. inversion D'; subst. clear D' RC. unfold xc in V; cbn [xev] in V. rewrite El, Er in V. cbn [ob rop_ev rfun_ev] in V. rewrite q2r_int in V. unfold dec_ev in V.
           apply ob_some in V as (p & P & V). apply ob_some in V as (t & T & V). inversion V; subst.
           apply ob_some in T as (t1 & T1 & T). apply ob_some in T1 as (a & A & T1). inversion T1; subst.
           destruct (Rlt_dec 0 (fv ind l s)) as [PO|PO]; [|discriminate]. cbn [ob] in T. apply ob_some in T as (t2 & T2 & T). apply ob_some in T2 as (b & B & T2).
           inversion T2; subst. inversion T; subst.
           assert (p = exp ((fv ind r s - 1) * ln (fv ind l s))) as ->.
           { apply (rpow_unique (fv ind l s) (fv ind r s - 1)); [now apply rpow_ev_spec|now constructor]. }
           pose proof (near_and s _ _ EQ (near_pos _ s a (Ll a A) PO)) as NN.
           apply (nears_ext (fun z => exp (fv ind r z * ln (fv ind l z)))).
           ++ apply (nears_imp _ _ _ NN). intros z [R0 P0]. inversion R0; subst. apply (rpow_unique (fv ind l z) (fv ind r z)); [now constructor|auto].
           ++ replace (exp ((fv ind r s - 1) * ln (fv ind l s)) * (fv ind r s * a + fv ind l s * ln (fv ind l s) * b))
                with (exp (fv ind r s * ln (fv ind l s)) * (b * ln (fv ind l s) + fv ind r s * a / fv ind l s)).
              ** apply pow_lim_pos; auto.
              ** replace ((fv ind r s - 1) * ln (fv ind l s)) with (fv ind r s * ln (fv ind l s) + - ln (fv ind l s)) by ring.
                 rewrite exp_plus, exp_Ropp, exp_ln by auto. field. lra.
  - destruct (defd_fun ind f e N) as (N1 & EQ). pose proof (defd_at _ _ N1) as E1. set (g := fv ind (XFun f e)) in *. unfold ev in E1, V.
    apply obind2_some in D as (d1 & D1 & D).
    assert (L : forall w, ev ind d1 s = Some w -> derivable_pt_lim (fv ind e) s w) by (intros w W; now apply (IH mapped ind d1)). unfold ev in L.
    pose proof (nears_at _ _ EQ) as R1. cbn beta in R1. clear IH D1 N.
    destruct f; cbn zeta in D; inversion D; subst; clear D; unfold xc in V; cbn [xev] in V; rewrite ?E1 in V; cbn [ob rop_ev rfun_ev] in V; rewrite ?rpow_ev_two, ?q2r_int in V; cbn [ob rop_ev rfun_ev] in V; unfold dec_ev in V.
    + apply ob_some in V as (t & T & V). inversion V; subst. apply ob_some in T as (a & A & T).
      destruct (Rle_dec 0 (1 - fv ind e s * fv ind e s)) as [PO|PO]; [|discriminate]. cbn [ob] in T.
      destruct (Req_EM_T _ 0) as [Z|Z]; [discriminate|]. inversion T; subst.
      assert (PO' : 0 < 1 - fv ind e s * fv ind e s).
      { destruct PO as [PO|PO]; auto. exfalso. apply Z. rewrite <- PO. apply sqrt_0. }
      apply (nears_ext (fun z => acos (fv ind e z))); [apply (nears_imp _ _ _ EQ); intros z R0; now inversion R0|].
      replace (- (a / sqrt (1 - fv ind e s * fv ind e s))) with (- / sqrt (1 - fv ind e s * fv ind e s) * a) by (unfold Rdiv; ring).
      apply (comp_lim (fv ind e) acos); auto. apply acos_lim. split; nra.
    + apply ob_some in V as (a & A & T).
      destruct (Rle_dec 0 (1 - fv ind e s * fv ind e s)) as [PO|PO]; [|discriminate]. cbn [ob] in T.
      destruct (Req_EM_T _ 0) as [Z|Z]; [discriminate|]. inversion T; subst.
      assert (PO' : 0 < 1 - fv ind e s * fv ind e s).
      { destruct PO as [PO|PO]; auto. exfalso. apply Z. rewrite <- PO. apply sqrt_0. }
      apply (nears_ext (fun z => asin (fv ind e z))); [apply (nears_imp _ _ _ EQ); intros z R0; now inversion R0|].
      replace (a / sqrt (1 - fv ind e s * fv ind e s)) with (/ sqrt (1 - fv ind e s * fv ind e s) * a) by (unfold Rdiv; ring).
      apply (comp_lim (fv ind e) asin); auto. apply asin_lim. split; nra.
    + apply ob_some in V as (a & A & T). destruct (Req_EM_T _ 0) as [Z|Z]; [discriminate|]. inversion T; subst.
      apply (nears_ext (fun z => atan (fv ind e z))); [apply (nears_imp _ _ _ EQ); intros z R0; now inversion R0|].
      replace (a / (1 + fv ind e s * fv ind e s)) with (/ (1 + fv ind e s ^ 2) * a) by (field; nra).
      apply (comp_lim (fv ind e) atan); auto. apply derivable_pt_lim_atan.
    + apply ob_some in V as (a & A & T). inversion T; subst.
      apply (nears_ext (fun z => cos (fv ind e z))); [apply (nears_imp _ _ _ EQ); intros z R0; now inversion R0|].
      apply (comp_lim (fv ind e) cos); auto. apply derivable_pt_lim_cos.
    + apply ob_some in V as (a & A & T). inversion T; subst.
      apply (nears_ext (fun z => cosh (fv ind e z))); [apply (nears_imp _ _ _ EQ); intros z R0; now inversion R0|].
      apply (comp_lim (fv ind e) cosh); auto. apply derivable_pt_lim_cosh.
    + apply ob_some in V as (a & A & T). inversion T; subst.
      apply (nears_ext (fun z => exp (fv ind e z))); [apply (nears_imp _ _ _ EQ); intros z R0; now inversion R0|].
      apply (comp_lim (fv ind e) exp); auto. apply derivable_pt_lim_exp.
    + apply ob_some in V as (a & A & T). destruct (Req_EM_T _ 0) as [Z|Z]; [discriminate|]. inversion T; subst.
      apply (nears_ext (fun z => ln (fv ind e z))); [apply (nears_imp _ _ _ EQ); intros z R0; now inversion R0|].
      replace (a / fv ind e s) with (/ fv ind e s * a) by (unfold Rdiv; ring).
      apply (comp_lim (fv ind e) ln); auto. apply derivable_pt_lim_ln. now inversion R1.
    + apply ob_some in V as (a & A & T). destruct (Rlt_dec 0 10) as [_|F]; [|lra]. cbn [ob] in T. destruct (Req_EM_T _ 0) as [Z|Z]; [discriminate|]. inversion T; subst.
      apply (nears_ext (fun z => ln (fv ind e z) / ln 10)); [apply (nears_imp _ _ _ EQ); intros z R0; now inversion R0|].
      replace (a / (fv ind e s * ln 10)) with ((/ fv ind e s * a) / ln 10).
      * apply (derivable_pt_lim_div_scal (fun z => ln (fv ind e z))). apply (comp_lim (fv ind e) ln); auto. apply derivable_pt_lim_ln. now inversion R1.
      * field. split; intros K; apply Z; rewrite K; ring.
    + apply ob_some in V as (a & A & T). inversion T; subst.
      apply (nears_ext (fun z => sin (fv ind e z))); [apply (nears_imp _ _ _ EQ); intros z R0; now inversion R0|].
      apply (comp_lim (fv ind e) sin); auto. apply derivable_pt_lim_sin.
    + apply ob_some in V as (a & A & T). inversion T; subst.
      apply (nears_ext (fun z => sinh (fv ind e z))); [apply (nears_imp _ _ _ EQ); intros z R0; now inversion R0|].
      apply (comp_lim (fv ind e) sinh); auto. apply derivable_pt_lim_sinh.
    + apply ob_some in V as (t & T & V). apply ob_some in T as (a & A & T).
      destruct (Rle_dec 0 (fv ind e s)) as [PO|PO]; [|discriminate]. cbn [ob] in T. destruct (Req_EM_T (sqrt (fv ind e s)) 0) as [Z|Z]; [discriminate|]. inversion T; subst.
      destruct (Req_EM_T 2 0); [lra|]. inversion V; subst.
      assert (PO' : 0 < fv ind e s). { destruct PO as [PO|PO]; auto. exfalso. apply Z. rewrite <- PO. apply sqrt_0. }
      apply (nears_ext (fun z => sqrt (fv ind e z))); [apply (nears_imp _ _ _ EQ); intros z R0; now inversion R0|].
      replace (a / sqrt (fv ind e s) / 2) with (/ (2 * sqrt (fv ind e s)) * a) by (field; auto).
      apply (comp_lim (fv ind e) sqrt); auto. now apply derivable_pt_lim_sqrt.
    + apply ob_some in V as (a & A & T). destruct (Req_EM_T _ 0) as [Z|Z]; [discriminate|]. inversion T; subst.
      apply (nears_ext (fun z => tan (fv ind e z))); [apply (nears_imp _ _ _ EQ); intros z R0; now inversion R0|].
      replace (a / (cos (fv ind e s) * cos (fv ind e s))) with (/ (cos (fv ind e s) * cos (fv ind e s)) * a) by (unfold Rdiv; ring).
      apply (comp_lim (fv ind e) tan); auto. apply tan_lim. intros K. apply Z. rewrite K. ring.
    + apply ob_some in V as (a & A & T). destruct (Req_EM_T _ 0) as [Z|Z]; [discriminate|]. inversion T; subst.
      apply (nears_ext (fun z => tanh (fv ind e z))); [apply (nears_imp _ _ _ EQ); intros z R0; now inversion R0|].
      replace (a / (cosh (fv ind e s) * cosh (fv ind e s))) with (/ (cosh (fv ind e s) * cosh (fv ind e s)) * a) by (unfold Rdiv; ring).
      apply (comp_lim (fv ind e) tanh); auto. apply tanh_lim.
  - destruct (defd_atan2 ind y x N) as (Ny & Nx & EQ). pose proof (defd_at _ _ Ny) as Ey. pose proof (defd_at _ _ Nx) as Ex. unfold ev in Ey, Ex, V.
    apply obind2_some in D as (dy & Dy & D). apply obind2_some in D as (dx & Dx & D). inversion D; subst. cbn [xev] in V. rewrite Ey, Ex in V. cbn [ob rop_ev] in V.
    apply ob_some in V as (n & H & V). apply ob_some in H as (p & P & H). apply ob_some in P as (a & A & P). inversion P; subst.
    apply ob_some in H as (p & P' & H). apply ob_some in P' as (b & B & P'). inversion P'; subst. inversion H; subst.
    destruct (Req_EM_T _ 0) as [Z|Z]; [discriminate|]. inversion V; subst.
    apply (atan2_lim (fv ind y) (fv ind x)); auto; [now apply (IHy mapped ind dy)|now apply (IHx mapped ind dx)].
  - destruct a; [|discriminate]. apply obind2_some in D as (de & De & D). inversion D; subst. clear D. unfold ev in V. cbn [xev] in V.
    revert d V N. induction is as [|i is IHis]; intros d V N.
    + cbn in V. inversion V; subst. apply (derivable_pt_lim_ext (fun _ => 0)); [reflexivity|apply const_lim].
    + destruct (defd_sum ind i is k e N) as (N1 & N2 & EQ). cbn [sum_ev] in V. apply ob_some in V as (a & A & V). apply ob_some in V as (b & B & V). inversion V; subst.
      apply (nears_ext (fun z => fv (put ind k i) e z + fv ind (XRed XSum is k e) z)); [apply (nears_imp _ _ _ EQ); auto|].
      apply add_lim; [|now apply IHis]. now apply (IH _ _ _ _ De).
Qed.
End Main.

(** ** Definedness of the generated derivatives *)
Lemma near_nonzero : forall f s d, derivable_pt_lim f s d -> f s <> 0 -> nears s (fun z => f z <> 0).
Proof.
  intros f s d D N. destruct (Rtotal_order (f s) 0) as [L|[L|L]]; [|contradiction|].
  - destruct (near_neg f s d D L) as (e & E & H). exists e. split; auto. intros z Z. specialize (H z Z). lra.
  - destruct (near_pos f s d D L) as (e & E & H). exists e. split; auto. intros z Z. specialize (H z Z). lra.
Qed.
Lemma rpow_int_defined : forall x n, (1 <= n)%Z \/ x <> 0 -> exists w, rpow_ev x (Q2R (inject_Z n)) = Some w.
Proof.
  intros x n H. rewrite q2r_int. destruct (Z_le_dec 0 n) as [P|P].
  - exists (x ^ Z.to_nat n). apply rpow_ev_spec. replace (IZR n) with (INR (Z.to_nat n)) by (rewrite INR_IZR_INZ, Z2Nat.id; auto). constructor.
  - exists (/ x ^ Z.to_nat (- n)). apply rpow_ev_spec. replace (IZR n) with (- INR (Z.to_nat (- n))).
    + constructor. destruct H; [lia|auto].
    + rewrite INR_IZR_INZ, Z2Nat.id by lia. rewrite opp_IZR. ring.
Qed.
Lemma rpow_int_pred_defined : forall x n, (1 <= n)%Z \/ x <> 0 -> exists w, rpow_ev x (Q2R (inject_Z n - 1)) = Some w.
Proof.
  intros x n H. assert (E : Q2R (inject_Z n - 1) = Q2R (inject_Z (n - 1))).
  { rewrite Q2R_minus, !q2r_int, minus_IZR. unfold Q2R. cbn. field. }
  rewrite E. rewrite q2r_int. destruct (Z_le_dec 1 n) as [P|P].
  - exists (x ^ Z.to_nat (n - 1)). apply rpow_ev_spec. replace (IZR (n - 1)) with (INR (Z.to_nat (n - 1))) by (rewrite INR_IZR_INZ, Z2Nat.id; auto; lia). constructor.
  - destruct H as [H|H]; [lia|]. rewrite <- q2r_int. apply rpow_int_defined. auto.
Qed.
Lemma rpow_pos_defined : forall x y, 0 < x -> rpow_ev x y = Some (exp (y * ln x)).
Proof. intros x y X. apply rpow_ev_spec. now constructor. Qed.

Section Defined.
Variables (m : xmode) (var : nat -> R -> R) (glob : nat -> R) (time : R -> R) (s : R).
Hypothesis DOK : derivatives_ok m var s.
Hypothesis TOK : time_ok m time.
Notation EV := (ev var glob time).
Notation FV := (fv var glob time).
Notation DEF := (defd var glob time s).
Notation REG := (regular (fun v => var v s) glob (time s)).
Lemma xval_fv : forall ind e x, xval (fun v => var v s) glob (time s) ind e x -> FV ind e s = x.
Proof. intros ind e x H. apply xev_spec in H. unfold fv, ev. now rewrite H. Qed.
Lemma always_defd : forall ind e, (forall z, EV ind e z <> None) -> DEF ind e.
Proof. intros ind e H. exists 1. split; [lra|auto]. Qed.
Lemma defd_intro : forall ind e (P : R -> Prop), nears s P -> (forall z, P z -> EV ind e z <> None) -> DEF ind e.
Proof. intros ind e P H I. exact (nears_imp _ _ _ H I). Qed.
Lemma bin_defd : forall ind ew o l r (P : R -> Prop), DEF ind l -> DEF ind r -> nears s P ->
  (forall z, P z -> rop_ev o (FV ind l z) (FV ind r z) <> None) -> DEF ind (XBin ew o l r).
Proof.
  intros ind ew o l r P Nl Nr NP H. apply (defd_intro _ _ _ (near_and s _ _ (near_and s _ _ Nl Nr) NP)). intros z [[A B] C].
  unfold ev. cbn [xev]. specialize (H z C). unfold fv in H. unfold ev in *.
  destruct (xev _ _ _ ind l); [|congruence]. destruct (xev _ _ _ ind r); [|congruence]. exact H.
Qed.
Lemma fun_defd : forall ind f e (P : R -> Prop), DEF ind e -> nears s P ->
  (forall z, P z -> rfun_ev f (FV ind e z) <> None) -> DEF ind (XFun f e).
Proof.
  intros ind f e P Ne NP H. apply (defd_intro _ _ _ (near_and s _ _ Ne NP)). intros z [A C].
  unfold ev. cbn [xev]. specialize (H z C). unfold fv in H. unfold ev in *. destruct (xev _ _ _ ind e); [|congruence]. exact H.
Qed.
Lemma nears_true : nears s (fun _ => True).
Proof. exists 1. split; [lra|auto]. Qed.
Definition good (e : xexpr) : Prop := forall mapped ind e', derive m mapped e = Ok (Some e') -> REG ind e -> DEF ind e /\ exists d, EV ind e' s = Some d.
Lemma good_lim : forall e, good e -> forall mapped ind e', derive m mapped e = Ok (Some e') -> REG ind e ->
  DEF ind e /\ exists d, EV ind e' s = Some d /\ derivable_pt_lim (FV ind e) s d.
Proof.
  intros e G mapped ind e' D Rg. destruct (G mapped ind e' D Rg) as (N & d & V). split; auto. exists d. split; auto.
  now apply (derive_sound m var glob time s DOK TOK e mapped ind e').
Qed.
Lemma derive_defined : forall e, good e.
Proof.
  induction e as [q| |k|v|v|e IH|ew o l IHl r IHr|f e IH|y IHy x IHx|a is k e IH]; intros mapped ind e' D Rg; cbn [derive] in D.
  - inversion D; subst. split; [apply always_defd; discriminate|]. eexists. reflexivity.
  - destruct (is_time m); inversion D; subst; (split; [apply always_defd; discriminate|]; eexists; reflexivity).
  - destruct (_ && _); [discriminate|]. destruct (mapped k); inversion D; subst. split; [apply always_defd; discriminate|]. eexists. reflexivity.
  - destruct (vder m v); [|destruct (unknown_const m)]; inversion D; subst; (split; [apply always_defd; discriminate|]; eexists; reflexivity).
  - inversion D; subst. split; [apply always_defd; discriminate|]. eexists. reflexivity.
  - apply obind2_some in D as (d1 & D1 & D). inversion D; subst. inversion Rg; subst.
    destruct (IH mapped ind d1 D1) as (N & d & V); auto. unfold ev in V. split.
    + apply (defd_intro _ _ _ N). intros z Z. unfold ev in *. cbn [xev]. destruct (xev _ _ _ ind e); cbn; congruence.
    + exists (- d). unfold ev. cbn [xev]. now rewrite V.
  - assert (SUB : exists dl dr, derive m mapped l = Ok (Some dl) /\ derive m mapped r = Ok (Some dr)).
    { destruct o, ew; apply obind2_some in D as (dl & Dl & D); apply obind2_some in D as (dr & Dr & D); eauto. }
    destruct SUB as (dl & dr & Dl & Dr).
    assert (RR : REG ind l /\ REG ind r) by (inversion Rg; subst; auto; split; auto; constructor).
    destruct RR as [Rl Rr].
    destruct (good_lim l IHl mapped ind dl Dl Rl) as (Nl & a & A & LA). destruct (good_lim r IHr mapped ind dr Dr Rr) as (Nr & b & B & LB).
    pose proof (defd_at _ _ _ _ _ _ Nl) as El. pose proof (defd_at _ _ _ _ _ _ Nr) as Er. unfold ev in A, B, El, Er.
    destruct o.
    + assert (D' : ret (XBin ew XAdd dl dr) = Ok (Some e')) by (destruct ew; rewrite Dl, Dr in D; exact D). inversion D'; subst. split.
      * apply (bin_defd _ _ _ _ _ _ Nl Nr nears_true). discriminate.
      * unfold ev. cbn [xev]. rewrite A, B. cbn. eauto.
    + assert (D' : ret (XBin ew XSub dl dr) = Ok (Some e')) by (destruct ew; rewrite Dl, Dr in D; exact D). inversion D'; subst. split.
      * apply (bin_defd _ _ _ _ _ _ Nl Nr nears_true). discriminate.
      * unfold ev. cbn [xev]. rewrite A, B. cbn. eauto.
    + assert (D' : ret (XBin ew XAdd (XBin ew XMul dl r) (XBin ew XMul l dr)) = Ok (Some e')) by (destruct ew; rewrite Dl, Dr in D; exact D). inversion D'; subst. split.
      * apply (bin_defd _ _ _ _ _ _ Nl Nr nears_true). discriminate.
      * unfold ev. cbn [xev]. rewrite A, B, El, Er. cbn. eauto.
    + destruct ew; rewrite Dl, Dr in D; cbn in D; [discriminate|]. inversion D; subst.
      assert (NZ : FV ind r s <> 0). { inversion Rg; subst; [intuition discriminate|]. now rewrite (xval_fv ind r y). }
      split.
      * apply (bin_defd _ _ _ _ _ _ Nl Nr (near_nonzero _ _ _ LB NZ)). intros z Z. cbn. destruct (Req_EM_T _ 0); [contradiction|discriminate].
      * unfold ev. unfold xc. cbn [xev]. rewrite A, B, El, Er. cbn [ob rop_ev]. rewrite rpow_ev_two. cbn [ob rop_ev].
        destruct (Req_EM_T _ 0) as [Z|Z]; [|eauto]. exfalso. apply NZ. apply Rmult_integral in Z. tauto.
    + assert (CASE : 0 < FV ind l s \/ exists n, ew = false /\ r = XConst (inject_Z n) /\ ((1 <= n)%Z \/ FV ind l s <> 0)).
      { inversion Rg; subst; [intuition discriminate|left; now rewrite (xval_fv ind l x)| |]; right; exists n; repeat split; auto. right. now rewrite (xval_fv ind l x). }
      destruct CASE as [P|(n & -> & -> & C)].
      * split.
        -- apply (bin_defd _ _ _ _ _ _ Nl Nr (near_pos _ _ _ LA P)). intros z Z. cbn [rop_ev]. rewrite rpow_pos_defined by auto. discriminate.
        -- destruct ew.
           ++ rewrite Dl, Dr in D. cbn in D. inversion D; subst. unfold ev. cbn [xev]. rewrite A, B, El, Er. cbn [ob rop_ev rfun_ev]. unfold dec_ev.
              rewrite rpow_pos_defined by auto. destruct (Rlt_dec 0 _); [|contradiction]. cbn [ob rop_ev]. destruct (Req_EM_T _ 0); [lra|]. cbn. eauto.
           ++ destruct (match r with XConst _ => true | _ => false end) eqn:RC.
              ** destruct r; try discriminate. rewrite Dl in D. cbn in D. inversion D; subst. unfold ev. cbn [xev]. rewrite A, El. cbn [ob rop_ev].
                 rewrite rpow_pos_defined by auto. cbn. eauto.
              ** assert (D' : Ok (Some (XBin false XMul (XBin false XPow l (XBin false XSub r (xc 1)))
                    (XBin false XAdd (XBin false XMul r dl) (XBin false XMul (XBin false XMul l (XFun XLog l)) dr)))) = Ok (Some e')).
                 { rewrite <- D, Dl, Dr. destruct r; try discriminate; reflexivity. }
                 clear D. inversion D'; subst. unfold ev, xc. cbn [xev]. rewrite A, B, El, Er. cbn [ob rop_ev rfun_ev]. unfold dec_ev.
                 rewrite rpow_pos_defined by auto. destruct (Rlt_dec 0 _); [|contradiction]. cbn. eauto.
      * split.
        -- assert (NN : nears s (fun z => (1 <= n)%Z \/ FV ind l z <> 0)).
           { destruct C as [C|C]; [exists 1; split; [lra|auto]|]. apply (nears_imp _ _ _ (near_nonzero _ _ _ LA C)). auto. }
           apply (bin_defd _ _ _ _ _ _ Nl Nr NN). intros z Z. cbn [rop_ev]. unfold fv at 2, ev. cbn [xev].
           destruct (rpow_int_defined _ n Z) as (w & ->). discriminate.
        -- rewrite Dl in D. cbn in D. inversion D; subst. unfold ev. cbn [xev]. rewrite A, El. cbn [ob rop_ev].
           destruct (rpow_int_pred_defined _ n C) as (w & W). change (inject_Z n - 1)%Q with (inject_Z n - 1)%Q in W. rewrite W. cbn. eauto.
  - apply obind2_some in D as (d1 & D1 & D). inversion Rg; subst.
    destruct (good_lim e IH mapped ind d1 D1) as (N & a & A & LA); auto. pose proof (defd_at _ _ _ _ _ _ N) as E1. unfold ev in A, E1.
    match goal with H : xval _ _ _ _ _ _ |- _ => apply xval_fv in H; subst x end.
    match goal with H : fun_interior _ _ |- _ => rename H into FI end.
    assert (P1 : nears s (fun z => -1 < FV ind e z < 1) \/ ~ (f = XAcos \/ f = XAsin)).
    { destruct f; try (right; intuition discriminate); left; cbn in FI.
      all: pose proof (near_pos (fun z => FV ind e z + 1) s (a + 0) (add_lim _ _ _ _ _ LA (const_lim 1 s)) ltac:(lra)) as K1;
        pose proof (near_pos (fun z => 1 - FV ind e z) s (0 - a) (sub_lim _ _ _ _ _ (const_lim 1 s) LA) ltac:(lra)) as K2;
        apply (nears_imp _ _ _ (near_and s _ _ K1 K2)); intros z; lra. }
    assert (P2 : nears s (fun z => 0 < FV ind e z) \/ ~ (f = XLog \/ f = XLog10 \/ f = XSqrt)).
    { destruct f; try (right; intuition discriminate); left; cbn in FI; exact (near_pos _ _ _ LA FI). }
    assert (P3 : nears s (fun z => cos (FV ind e z) <> 0) \/ f <> XTan).
    { destruct f; try (right; discriminate); left. cbn in FI. apply (near_nonzero (fun z => cos (FV ind e z)) s (- sin (FV ind e s) * a)); auto.
      apply (comp_lim (FV ind e) cos); auto. apply derivable_pt_lim_cos. }
    assert (SQ : forall x, 1 + x * x <> 0) by (intros x; nra).
    assert (SP : f = XAcos \/ f = XAsin -> 0 < 1 - FV ind e s * FV ind e s) by (intros [-> | ->]; cbn in FI; nra).
    destruct f; cbn zeta in D; inversion D; subst; clear D; (split;
      [first
       [ apply (fun_defd _ _ _ _ N nears_true); discriminate
       | destruct P1 as [P1|P1]; [apply (fun_defd _ _ _ _ N P1)|tauto]; intros z Z; cbn; unfold dec_ev; destruct (Rle_dec (-1) _); [|lra]; destruct (Rle_dec _ 1); [discriminate|lra]
       | destruct P2 as [P2|P2]; [apply (fun_defd _ _ _ _ N P2)|tauto]; intros z Z; cbn; unfold dec_ev; first [destruct (Rlt_dec 0 _)|destruct (Rle_dec 0 _)]; [discriminate|lra]
       | destruct P3 as [P3|P3]; [apply (fun_defd _ _ _ _ N P3)|tauto]; intros z Z; cbn; unfold dec_ev; destruct (Req_EM_T _ 0); [contradiction|discriminate] ]
      | unfold ev, xc; cbn [xev]; rewrite A, ?E1; cbn [ob rop_ev rfun_ev]; rewrite ?rpow_ev_two, ?q2r_int; cbn [ob rop_ev rfun_ev]; unfold dec_ev ]).
    + specialize (SP (or_introl eq_refl)). destruct (Rle_dec 0 _); [|lra]. cbn [ob rop_ev]. destruct (Req_EM_T _ 0) as [Z|Z]; [apply sqrt_eq_0 in Z; lra|]. cbn. eauto.
    + specialize (SP (or_intror eq_refl)). destruct (Rle_dec 0 _); [|lra]. cbn [ob rop_ev]. destruct (Req_EM_T _ 0) as [Z|Z]; [apply sqrt_eq_0 in Z; lra|]. cbn. eauto.
    + destruct (Req_EM_T _ 0) as [Z|Z]; [now apply SQ in Z|]. eauto.
    + eauto.
    + eauto.
    + eauto.
    + cbn in FI. destruct (Req_EM_T _ 0) as [Z|Z]; [lra|]. eauto.
    + cbn in FI. destruct (Rlt_dec 0 10); [|lra]. cbn [ob rop_ev]. destruct (Req_EM_T _ 0) as [Z|Z]; [|eauto]. exfalso.
      apply Rmult_integral in Z. assert (0 < ln 10) by (rewrite <- ln_1; apply ln_increasing; lra). lra.
    + eauto.
    + eauto.
    + cbn in FI. destruct (Rle_dec 0 _); [|lra]. cbn [ob rop_ev]. destruct (Req_EM_T _ 0) as [Z|Z]; [apply sqrt_eq_0 in Z; lra|]. cbn [ob rop_ev].
      destruct (Req_EM_T _ 0) as [Z2|Z2]; [lra|eauto].
    + cbn in FI. destruct (Req_EM_T _ 0) as [Z|Z]; [apply Rmult_integral in Z; tauto|]. eauto.
    + pose proof (cosh_pos (FV ind e s)). destruct (Req_EM_T _ 0) as [Z|Z]; [apply Rmult_integral in Z; lra|]. eauto.
  - apply obind2_some in D as (dy & Dy & D). apply obind2_some in D as (dx & Dx & D). inversion D; subst. inversion Rg; subst.
    destruct (good_lim y IHy mapped ind dy Dy) as (Ny & a & A & LA); auto. destruct (good_lim x IHx mapped ind dx Dx) as (Nx & b & B & LB); auto.
    pose proof (defd_at _ _ _ _ _ _ Ny) as Ey. pose proof (defd_at _ _ _ _ _ _ Nx) as Ex. unfold ev in A, B, Ey, Ex.
    repeat match goal with H : xval _ _ _ _ _ _ |- _ => apply xval_fv in H; subst end.
    match goal with H : _ <> 0 \/ 0 < _ |- _ => rename H into C end.
    split.
    + assert (NN : nears s (fun z => FV ind y z <> 0 \/ 0 < FV ind x z)).
      { destruct C as [C|C]; [apply (nears_imp _ _ _ (near_nonzero _ _ _ LA C)); auto|apply (nears_imp _ _ _ (near_pos _ _ _ LB C)); auto]. }
      apply (defd_intro _ _ _ (near_and s _ _ (near_and s _ _ Ny Nx) NN)). intros z [[K1 K2] K3]. unfold fv in K3. unfold ev in *. cbn [xev].
      destruct (xev (fun v => var v z) glob (time z) ind y) as [vy'|]; [|congruence]. destruct (xev (fun v => var v z) glob (time z) ind x) as [vx'|]; [|congruence]. cbn [ob]. unfold ratan2_ev, dec_ev.
      destruct (Rlt_dec 0 vx'); [discriminate|]. destruct (Rlt_dec 0 vy'); [discriminate|]. destruct (Rlt_dec vy' 0); [discriminate|]. lra.
    + unfold ev. cbn [xev]. rewrite A, B, Ey, Ex. cbn [ob rop_ev]. destruct (Req_EM_T _ 0) as [Z|Z]; [|eauto]. exfalso. destruct C; nra.
  - destruct a; [|discriminate]. apply obind2_some in D as (de & De & D). inversion D; subst. inversion Rg; subst.
    match goal with H : forall i, In i is -> _ |- _ => rename H into RS end. clear D Rg. induction is as [|i is IHis].
    + split; [apply always_defd; discriminate|]. eexists. reflexivity.
    + destruct IHis as (N2 & b & B); [intros j J; apply RS; now right|]. destruct (IH _ (put ind k i) de De) as (N1 & a & A); [apply RS; now left|].
      unfold ev in A, B. cbn [xev] in B. split.
      * apply (defd_intro _ _ _ (near_and s _ _ N1 N2)). intros z [K1 K2]. unfold ev in *. cbn [xev sum_ev] in *.
        destruct (xev (fun v => var v z) glob (time z) (put ind k i) e); [|congruence]. cbn [ob]. destruct (sum_ev (fun i0 => xev (fun v => var v z) glob (time z) (put ind k i0) e) is); [discriminate|congruence].
      * exists (a + b). unfold ev. cbn [xev sum_ev]. rewrite A. cbn [ob]. now rewrite B.
Qed.
End Defined.

(** ** Success *)
Lemma derive_total : forall m e b mapped, supported m b e -> (forall k, In k b -> mapped k = true) -> exists e', derive m mapped e = Ok (Some e').
Proof.
  intros m e b mapped H. revert mapped. induction H; intros mapped B; cbn [derive].
  - eexists. reflexivity.
  - destruct (is_time m); eexists; reflexivity.
  - rewrite (B k) by auto. destruct H as [-> | ->]; [|rewrite andb_false_r]; eexists; reflexivity.
  - destruct (vder m v); [eexists; reflexivity|]. destruct H as [H|H]; [congruence|]. rewrite H. eexists; reflexivity.
  - eexists. reflexivity.
  - destruct (IHsupported mapped B) as (d & ->). eexists. reflexivity.
  - destruct (IHsupported1 mapped B) as (d1 & D1). destruct (IHsupported2 mapped B) as (d2 & D2).
    destruct o, ew; rewrite D1; cbn [obind2 bind]; rewrite ?D2; cbn [obind2 bind]; try (eexists; reflexivity).
    + destruct H; [discriminate|congruence].
    + destruct r; eexists; reflexivity.
  - destruct (IHsupported mapped B) as (d & ->). destruct f; eexists; reflexivity.
  - destruct (IHsupported1 mapped B) as (d1 & ->). destruct (IHsupported2 mapped B) as (d2 & ->). eexists; reflexivity.
  - destruct (IHsupported (fun j => Nat.eqb j k || mapped j)) as (d & ->).
    + intros j [<-|J]; [now rewrite Nat.eqb_refl|]. rewrite (B j J). apply orb_true_r.
    + eexists. reflexivity.
Qed.
