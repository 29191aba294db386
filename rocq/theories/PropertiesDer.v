(** Property C42: the generated derivatives are mathematical derivatives. *)
From Coq Require Import List Bool ZArith QArith Reals Ratan Qreals Lra Lia.
From Verif Require Import Result DerModel DerSpec DerProofs.
Import ListNotations.
Local Open Scope R_scope.

(** C42: where the generated expression has a value and the expression is a
    function f near the point, that value is the derivative of f. *)
Theorem C42_derivative : forall m mapped var glob time s ind e e' d f,
  derivatives_ok m var s -> time_ok m time ->
  derive m mapped e = Ok (Some e') ->
  xval (fun v => var v s) glob (time s) ind e' d ->
  value_near var glob time ind e s f ->
  derivable_pt_lim f s d.
Proof.
  intros m mapped var glob time s ind e e' d f DO TO D V (eps & E & H). apply xev_spec in V.
  apply (nears_ext (fv var glob time ind e)).
  - exists eps. split; auto. intros z Z. apply fv_ev. apply xev_spec. now apply H.
  - apply (derive_sound m var glob time s DO TO e mapped ind e'); auto. exists eps. split; auto.
    intros z Z. specialize (H z Z). apply xev_spec in H. unfold ev. congruence.
Qed.
Print Assumptions C42_derivative.

(** At the regular points of the expression the generated expression has a value. *)
Theorem C42_regular : forall m mapped var glob time s ind e e',
  derivatives_ok m var s -> time_ok m time ->
  derive m mapped e = Ok (Some e') ->
  regular (fun v => var v s) glob (time s) ind e ->
  exists f d, value_near var glob time ind e s f /\ xval (fun v => var v s) glob (time s) ind e' d /\ derivable_pt_lim f s d.
Proof.
  intros m mapped var glob time s ind e e' DO TO D Rg.
  destruct (derive_defined m var glob time s DO TO e mapped ind e' D Rg) as (N & d & V). exists (fv var glob time ind e), d.
  split; [|split; [now apply xev_spec|now apply (derive_sound m var glob time s DO TO e mapped ind e')]].
  destruct N as (eps & E & H). exists eps. split; auto. intros z Z. apply xev_spec. now apply ev_fv, H.
Qed.
Print Assumptions C42_regular.

(** Every supported expression has a generated derivative. *)
Theorem C42_total : forall m e, supported m [] e -> exists e', derive m (fun _ => false) e = Ok (Some e').
Proof. intros m e H. apply (derive_total m e [] _ H). intros k []. Qed.
Print Assumptions C42_total.

(** Differentiating an equation: if an equation holds along a trajectory near a
    point, its derivative holds at that point. *)
Theorem C42_equation : forall vder uc var glob s ind l r l' r' a b f,
  derivatives_ok (Mode vder uc true false) var s ->
  createEquationTimeDerivative vder uc (l, r) = Ok (Some (l', r')) ->
  value_near var glob (fun z => z) ind l s f -> value_near var glob (fun z => z) ind r s f ->
  xval (fun v => var v s) glob s ind l' a -> xval (fun v => var v s) glob s ind r' b ->
  a = b /\ derivable_pt_lim f s a.
Proof.
  intros vder uc var glob s ind l r l' r' a b f DO D Nl Nr Va Vb. unfold createEquationTimeDerivative in D. cbn [fst snd] in D.
  apply obind2_some in D as (l1 & Dl & D). apply obind2_some in D as (r1 & Dr & D). inversion D; subst.
  assert (T : time_ok (Mode vder uc true false) (fun z => z)) by (intros z; reflexivity).
  pose proof (C42_derivative _ _ var glob (fun z => z) s ind l l' a f DO T Dl Va Nl) as A.
  pose proof (C42_derivative _ _ var glob (fun z => z) s ind r r' b f DO T Dr Vb Nr) as B.
  split; auto. exact (uniqueness_limite f s a b A B).
Qed.
Print Assumptions C42_equation.

(** sum(i * x for i in 1:3) ^ (-2) + sin(time * x) / sqrt(y), where x = time and
    y = 4, at time 2. The variables 2 and 3 are the derivatives of 0 and 1. *)
Definition ex_var (v : nat) (z : R) : R := match v with 0%nat => z | 1%nat => 4 | 2%nat => 1 | _ => 0 end.
Definition ex_mode : xmode := Mode (fun v => match v with 0%nat => Some 2%nat | 1%nat => Some 3%nat | _ => None end) true true false.
Definition ex_expr : xexpr :=
  XBin false XAdd (XBin false XPow (XRed XSum [1%Z; 2%Z; 3%Z] 0 (XBin false XMul (XInd 0) (XVar 0))) (XConst (inject_Z (-2))))
    (XBin false XDiv (XFun XSin (XBin true XMul XTime (XVar 0))) (XFun XSqrt (XVar 1))).
Lemma ex_ok : forall s, derivatives_ok ex_mode ex_var s.
Proof.
  intros s v. destruct v as [|[|[|[|v]]]]; [apply derivable_pt_lim_id|apply (const_lim 4)|apply (const_lim 1)|apply (const_lim 0)|apply (const_lim 0)].
Qed.
Example C42_example :
  derivatives_ok ex_mode ex_var 2 /\ time_ok ex_mode (fun z => z) /\ supported ex_mode [] ex_expr
  /\ regular (fun v => ex_var v 2) (fun _ => 0) 2 (fun _ => 0%Z) ex_expr.
Proof.
  split; [|split; [|split]].
  - apply ex_ok.
  - intros z. reflexivity.
  - unfold ex_expr. repeat (match goal with |- supported _ _ _ => constructor end); cbn; auto; try (now left); try (right; discriminate);
      try (left; discriminate).
  - constructor; [auto| |].
    + apply (rg_pow_int _ _ _ _ _ _ (1 * 2 + (2 * 2 + (3 * 2 + 0)))).
      * constructor. intros i _. constructor; [auto|constructor|constructor].
      * repeat (apply xv_sum_cons; [apply (xv_bin _ _ _ _ _ _ _ _ _ _ _ (xv_ind _ _ _ _ _) (xv_var _ _ _ _ _)); constructor|]). constructor.
      * lra.
    + apply (rg_div _ _ _ _ _ _ _ (sqrt 4)).
      * econstructor; [constructor; [auto|constructor|constructor]|eapply xv_bin; [constructor|constructor|constructor]|exact I].
      * econstructor; [constructor|constructor|]. cbn. lra.
      * eapply xv_fun; [constructor|]. cbn. constructor. lra.
      * intros K. apply sqrt_eq_0 in K; lra.
Qed.

(** The elementwise division cannot be derived: an assertion fails. *)
Theorem C42_elementwise_refuted : exists m e, is_time m = true /\ derive m (fun _ => false) e = Bad.
Proof. exists ex_mode, (XBin true XDiv (XVar 0) (XVar 1)). now split. Qed.
Print Assumptions C42_elementwise_refuted.

(** An equation that uses the value of an induction variable, i * x = y, cannot
    be differentiated. *)
Theorem C42_induction_refuted : exists vder eq, createEquationTimeDerivative vder true eq = Ok None
  /\ eq = (XBin false XMul (XInd 0) (XVar 0), XVar 1).
Proof. eexists (fun _ => None), _. split; [|reflexivity]. reflexivity. Qed.
Print Assumptions C42_induction_refuted.

(** x .^ 2 has a derivative at x = -1, but the generated expression has no value
    there (it contains the logarithm of x); the same for x ^ p where p is a
    variable whose value is 2. *)
Theorem C42_power_refuted : exists ew p e' f,
  derive ex_mode (fun _ => false) (XBin ew XPow (XVar 0) p) = Ok (Some e')
  /\ derivatives_ok ex_mode ex_var (-1)
  /\ value_near ex_var (fun _ => 2) (fun z => z) (fun _ => 0%Z) (XBin ew XPow (XVar 0) p) (-1) f
  /\ derivable_pt_lim f (-1) (-2)
  /\ forall d, ~ xval (fun v => ex_var v (-1)) (fun _ => 2) (-1) (fun _ => 0%Z) e' d.
Proof.
  exists false, (XGlobal 0). eexists. exists (fun z => z ^ 2). split; [reflexivity|]. split; [|split; [|split]].
  - apply ex_ok.
  - exists 1. split; [lra|]. intros z _. eapply xv_bin; [constructor|constructor|]. cbn. constructor.
    replace 2 with (INR 2) by (cbn; lra). constructor.
  - replace (-2) with (INR 2 * (-1) ^ Nat.pred 2) by (cbn; lra). apply derivable_pt_lim_pow.
  - intros d H. apply xev_spec in H. cbn [xev ob rfun_ev rop_ev ex_var] in H.
    unfold dec_ev in H. destruct (Rlt_dec 0 (-1)); [lra|]. cbn [ob] in H.
    match type of H with ob ?x _ = _ => destruct x end; discriminate.
Qed.
Print Assumptions C42_power_refuted.
Theorem C42_elementwise_power_refuted : exists e' f,
  derive ex_mode (fun _ => false) (XBin true XPow (XVar 0) (xc 2)) = Ok (Some e')
  /\ value_near ex_var (fun _ => 0) (fun z => z) (fun _ => 0%Z) (XBin true XPow (XVar 0) (xc 2)) (-1) f
  /\ derivable_pt_lim f (-1) (-2)
  /\ forall d, ~ xval (fun v => ex_var v (-1)) (fun _ => 0) (-1) (fun _ => 0%Z) e' d.
Proof.
  eexists. exists (fun z => z ^ 2). split; [reflexivity|]. split; [|split].
  - exists 1. split; [lra|]. intros z _. eapply xv_bin; [constructor|constructor|]. cbn. constructor.
    replace (Q2R (inject_Z 2)) with (INR 2) by (unfold Q2R; cbn; lra). constructor.
  - replace (-2) with (INR 2 * (-1) ^ Nat.pred 2) by (cbn; lra). apply derivable_pt_lim_pow.
  - intros d H. apply xev_spec in H. unfold xc in H. cbn [xev ob rfun_ev rop_ev ex_var] in H.
    unfold dec_ev in H. destruct (Rlt_dec 0 (-1)); [lra|]. cbn [ob] in H.
    match type of H with ob ?x _ = _ => destruct x end; discriminate.
Qed.
Print Assumptions C42_elementwise_power_refuted.
