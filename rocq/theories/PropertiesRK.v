(** C75-C80: the Runge-Kutta and forward Euler integrators. *)
From Coq Require Import String Bool ZArith QArith Qreals Reals List Lia Lra.
From Verif Require Import Result RKModel RKSpec RKStatements RKExamples RKProofs RKOrderProofs
  RKRunProofs RKCaseProofs.
Import ListNotations.
Local Open Scope nat_scope.
Local Open Scope list_scope.

(** ** C75: a step of the simulation is a step of the method *)

(** Full statement: whatever the model, the values after a step are the ones the method
    gives for the differential equation of the model. Proved for the models where the
    derivative of a scalar depends, among the states and the derivatives, on that scalar
    only; the variables that are neither states nor derivatives are held at their values
    before the step. The others are missing, see [C75_array_refuted],
    [C75_coupled_refuted] and [C75_algebraic_refuted]. *)
Theorem C75_step_partial : forall m tb sccs eqs t h clock hid mem f,
  wf_model m -> first_order m -> wf_tableau tb ->
  (forall x e, gives_derivative m sccs x e -> decoupled m x e) ->
  try_step m tb sccs = Ok (Some eqs) ->
  solves t h clock hid eqs mem ->
  (forall v w q, plain m w -> hid v (Cur w, q) = mem (Cur w, q)) ->
  is_ode m sccs (fun w q => mem (Cur w, q)) f ->
  is_step (method_of_tableau tb) (integrated m sccs) f t h (current mem) (next mem).
Proof.
  intros m tb sccs eqs t h clock hid mem f W Fo Wt D H Sv Hp O. exists (slopes mem).
  exact (step_correct m tb sccs eqs W Wt H Fo D t h clock hid mem f Sv Hp O).
Qed.
Print Assumptions C75_step_partial.

(** The same for the generated code: its equations run in any order their dependencies
    allow. *)
Theorem C75_run_partial : forall m tb sccs eqs l t h clock mem f,
  wf_model m -> first_order m -> wf_tableau tb -> one_equation_each m sccs ->
  (forall x e, gives_derivative m sccs x e -> framed e /\ decoupled m x e) ->
  try_step m tb sccs = Ok (Some eqs) -> schedule_of eqs l ->
  is_ode m sccs (fun w q => mem (Cur w, q)) f ->
  let mem' := exec t h clock l mem in
  is_step (method_of_tableau tb) (integrated m sccs) f t h (current mem) (next mem') /\
  (forall w q, mem' (Cur w, q) = mem (Cur w, q)).
Proof.
  intros m tb sccs eqs l t h clock mem f W Fo Wt U D H (P & Od) O.
  exact (run_correct m tb sccs eqs l t h clock mem f W Fo Wt U D H P Od O).
Qed.
Print Assumptions C75_run_partial.

(** With the name of a variant: the step of the published method. *)
Theorem C75_variant_partial : forall name pub orders m sccs tb eqs l t h clock mem f,
  In (name, (pub, orders)) catalogue -> name <> "cash-karp"%string ->
  tableau_of name = Ok tb ->
  wf_model m -> first_order m -> one_equation_each m sccs ->
  (forall x e, gives_derivative m sccs x e -> framed e /\ decoupled m x e) ->
  try_step m tb sccs = Ok (Some eqs) -> schedule_of eqs l ->
  is_ode m sccs (fun w q => mem (Cur w, q)) f ->
  (forall t y z v, (forall w, y w = z w) -> f t y v = f t z v) ->
  is_step (method_of pub) (integrated m sccs) f t h
    (current mem) (next (exec t h clock l mem)).
Proof.
  intros name pub orders m sccs tb eqs l t h clock mem f C N T W Fo U D H P O Ext.
  destruct (catalogue_agrees name pub orders C N) as (tb' & T' & Wt & Sm & _).
  assert (tb' = tb) as -> by congruence.
  apply (same_method_step _ _ _ _ f t h _ _ Ext Sm).
  exact (proj1 (C75_run_partial m tb sccs eqs l t h clock mem f W Fo Wt U D H P O)).
Qed.
Print Assumptions C75_variant_partial.

Ltac check_ordered := apply ordered_b_sound; vm_compute; reflexivity.

(** The hypotheses of [C75_run_partial] and [C75_variant_partial] are met: x' = time - x
    with the classical method; its equations can be run in the order they are created. *)
Example C75_run_example :
  let g := (fun t x => t - x)%R in
  let sccs := one_state_sccs g in
  exists tb, tableau_of "rk4" = Ok tb /\ wf_model one_state /\ first_order one_state /\
    wf_tableau tb /\ one_equation_each one_state sccs /\
    (forall x e, gives_derivative one_state sccs x e -> framed e /\ decoupled one_state x e) /\
    (exists eqs, try_step one_state tb sccs = Ok (Some eqs) /\ length eqs = 6 /\
       schedule_of eqs eqs) /\
    integrated one_state sccs (0, []) /\
    (forall others, is_ode one_state sccs others (fun t y s => g t (y (0, snd s)))).
Proof.
  cbv zeta.
  assert (Only : forall g x e, gives_derivative one_state (one_state_sccs g) x e ->
    x = 0 /\ e = scalar_equation 1 (fun t vals => g t (vals 0 [])) [0] true).
  { intros g x e (s & [<- | []] & [<- | []] & [E | []]). injection E as <-. auto. }
  eexists. split; [vm_compute; reflexivity|]. split; [apply one_state_wf|]. split; [apply one_state_first|].
  split; [repeat split; cbn; lia|]. split; [|split; [|split; [|split]]].
  - intros x e p e' p' G G' P P' _. destruct (Only _ _ _ G) as (_ & ->).
    destruct (Only _ _ _ G') as (_ & ->). destruct P as [<- | []], P' as [<- | []]. auto.
  - intros x e G. destruct (Only _ _ _ G) as (-> & ->). split.
    + intros t f1 f2 p E. cbn. f_equal. apply E. now left.
    + intros t f1 f2 p [<- | []] E _. cbn in *. now rewrite E.
  - eexists. split; [vm_compute; reflexivity|]. split; [reflexivity|]. split; [reflexivity|].
    clear Only. check_ordered.
  - eexists _, []. split.
    + eexists. split; [now left|]. split; [left; reflexivity|now left].
    + split; [now left|reflexivity].
  - intros others x e p t y G P vals V1 _ _. destruct (Only _ _ _ G) as (-> & ->).
    destruct P as [<- | []]. cbn. rewrite V1; [reflexivity|now left].
Qed.

(** Refuted for the elements of an array: with der(x[1]) = x[2] and der(x[2]) = 1 all the
    stages read x[2] at the beginning of the step. Whatever the method, when the sum of
    b_i a_ij is not zero (it is 1/2 for every method of order two or more) the step is
    wrong. *)
Theorem C75_array_refuted : forall tb eqs t h clock hid mem f, wf_tableau tb -> h <> 0%R ->
  Rsum (t_rows tb) (fun i => Q2R (wts (method_of_tableau tb) i)
    * Rsum (t_rows tb) (fun j => Q2R (mat (method_of_tableau tb) i j)))%R <> 0%R ->
  try_step array_state tb array_state_sccs = Ok (Some eqs) ->
  solves t h clock hid eqs mem ->
  is_ode array_state array_state_sccs (fun w q => mem (Cur w, q)) f ->
  ~ is_step (method_of_tableau tb) (integrated array_state array_state_sccs) f t h
      (current mem) (next mem).
Proof.
  intros tb eqs t h clock hid mem f Wt Hh Nz H Sv O St.
  pose proof (array_step tb eqs t h clock hid mem Wt H Sv) as A.
  destruct (array_gives [0%Z]) as (e0 & G0 & P0 & A0 & R0); [now left|].
  destruct (array_gives [1%Z]) as (e1 & G1 & P1 & A1 & R1); [right; now left|].
  apply (chain_step _ _ f t h _ _ (0, [0%Z]) (0, [1%Z])) in St.
  - change (next mem (0, [0%Z]) = (current mem (0%nat, [0%Z])
      + h * (Rsum (t_rows tb) (fun j => Q2R (wts (method_of_tableau tb) j))
             * current mem (0%nat, [1%Z])))%R) in A.
    cbn [stages method_of_tableau] in St.
    set (c := Rsum _ (fun i => Q2R _ * Rsum _ _)%R) in *.
    assert (E : (h * h * c = 0)%R) by lra.
    apply Rmult_integral in E. destruct E as [E | E]; [|contradiction].
    apply Rmult_integral in E. tauto.
  - exists e0, [0%Z]. auto.
  - exists e1, [1%Z]. auto.
  - intros t' y.
    pose proof (is_ode_values _ _ _ f 0 e0 [0%Z] t' y array_state_wf array_state_first O G0 P0) as E.
    rewrite A0, R0 in E. refine (eq_trans E _).
    apply ode_values_state; [apply array_state_wf|now left].
  - intros t' y.
    pose proof (is_ode_values _ _ _ f 0 e1 [1%Z] t' y array_state_wf array_state_first O G1 P1) as E.
    rewrite A1, R1 in E. exact E.
Qed.
Print Assumptions C75_array_refuted.

(** The midpoint method on it: the equations can be run in the order they are created. *)
Example C75_array_example : exists tb eqs, tableau_of "midpoint" = Ok tb /\ wf_tableau tb /\
  try_step array_state tb array_state_sccs = Ok (Some eqs) /\ schedule_of eqs eqs /\
  (Rsum (t_rows tb) (fun i => Q2R (wts (method_of_tableau tb) i)
    * Rsum (t_rows tb) (fun j => Q2R (mat (method_of_tableau tb) i j))) = 1 / 2)%R /\
  forall t h clock mem, exists hid, solves t h clock hid eqs (exec t h clock eqs mem).
Proof.
  do 2 eexists. split; [vm_compute; reflexivity|]. split; [repeat split; cbn; lia|]. split; [reflexivity|].
  split; [split; [reflexivity|check_ordered]|]. split.
  - cbn. unfold Q2R. cbn. lra.
  - intros t h clock mem.
    exists (fun _ => exec t h clock (step_of array_state midpoint array_state_sccs) mem).
    intros v e I. cbn in I.
    repeat (destruct I as [I | I]; [injection I as <- <-; reflexivity|]). destruct I.
Qed.

(** Refuted for two states: with x' = y and y' = 1 the slopes of x read the value of y
    after the step, so what is found there before it is computed (the value before the
    step, that the last accepted step has left) or after. In both cases the step is wrong,
    for every method of order two or more. *)
Theorem C75_coupled_refuted : forall tb eqs t h clock hid mem f, wf_tableau tb -> h <> 0%R ->
  order_at_least (method_of_tableau tb) (wts (method_of_tableau tb)) 2 ->
  try_step two_states tb two_states_sccs = Ok (Some eqs) ->
  solves t h clock hid eqs mem ->
  (forall i, hid (Slope 0 i, []) (Fut 1, []) = mem (Cur 1, [])) \/
  (forall i, hid (Slope 0 i, []) (Fut 1, []) = mem (Fut 1, [])) ->
  is_ode two_states two_states_sccs (fun w q => mem (Cur w, q)) f ->
  ~ is_step (method_of_tableau tb) (integrated two_states two_states_sccs) f t h
      (current mem) (next mem).
Proof.
  intros tb eqs t h clock hid mem f Wt Hh Od H Sv Hr O St.
  pose proof (order_one _ _ (fun t L => Od t (le_S _ _ L))) as B1.
  pose proof (order_two _ _ Od) as B2.
  destruct two_gives as (ex & ey & Gx & Gy & Ix & Iy & Ax & Ay & Rx & Ry).
  assert (Px : In [] (e_indices ex)) by (rewrite Ix; now left).
  assert (Py : In [] (e_indices ey)) by (rewrite Iy; now left).
  apply (chain_step _ _ f t h _ _ (0, []) (1, [])) in St.
  - rewrite B1, B2 in St. cbn [stages method_of_tableau] in B1.
    assert (Sq : (h * h <> 0)%R) by (intros E; apply Rmult_integral in E; tauto).
    destruct Hr as [Hr | Hr]; destruct (two_step tb eqs t h clock hid mem _ Wt H Sv Hr) as (A & B);
      rewrite B1 in A, B.
    + change (next mem (0, []) = (current mem (0%nat, []) + h * (1 * current mem (1%nat, [])))%R) in A.
      lra.
    + change (next mem (0, []) = (current mem (0%nat, []) + h * (1 * next mem (1%nat, [])))%R) in A.
      change (next mem (1, []) = (current mem (1%nat, []) + h * 1)%R) in B.
      rewrite B in A. lra.
  - exists ex, []. cbn [fst snd]. auto.
  - exists ey, []. cbn [fst snd]. auto.
  - intros t' y. pose proof (is_ode_values _ _ _ f 0 ex [] t' y two_states_wf two_states_first O Gx Px) as E.
    rewrite Ax, Rx in E. refine (eq_trans E _).
    apply ode_values_state; [apply two_states_wf|right; now left].
  - intros t' y. pose proof (is_ode_values _ _ _ f 1 ey [] t' y two_states_wf two_states_first O Gy Py) as E.
    rewrite Ay, Ry in E. exact E.
Qed.
Print Assumptions C75_coupled_refuted.

(** The midpoint method on it, the slopes of x first: the new value of x is the one of
    Euler's method when the place of the next value of y still holds its current value. *)
Example C75_coupled_example : exists tb eqs l, tableau_of "midpoint" = Ok tb /\ wf_tableau tb /\
  order_at_least (method_of_tableau tb) (wts (method_of_tableau tb)) 2 /\
  try_step two_states tb two_states_sccs = Ok (Some eqs) /\ schedule_of eqs l /\
  (forall t h clock mem, exec t h clock l mem (Fut 0, []) =
     (mem (Cur 0, []) + h * mem (Fut 1, []))%R) /\
  (forall t h clock mem, exists hid,
     solves t h clock hid eqs (exec t h clock l mem) /\
     forall i, hid (Slope 0 i, []) (Fut 1, []) = mem (Fut 1, [])).
Proof.
  pose (eqs := step_of two_states midpoint two_states_sccs).
  pose (xs := firstn 3 eqs). pose (ys := firstn 3 (skipn 5 eqs)). pose (ds := firstn 2 (skipn 3 eqs)).
  eexists. exists eqs, (xs ++ ys ++ ds). split; [reflexivity|]. split; [repeat split; cbn; lia|].
  split; [apply check_order_sound; vm_compute; reflexivity|].
  split; [reflexivity|]. split; [|split].
  - split; [|check_ordered].
    change eqs with (xs ++ ds ++ ys ++ ds). intros q. rewrite !in_app_iff. tauto.
  - intros t h clock mem.
    transitivity (mem (Cur 0, []) + h * (0 * / 1 + 2 * / 2 * mem (Fut 1, [])))%R; [reflexivity|].
    field.
  - intros t h clock mem.
    exists (fun v => match fst v with
                     | Slope 0 _ => mem
                     | _ => exec t h clock (xs ++ ys ++ ds) mem
                     end).
    split; [|reflexivity].
    intros v e I. cbn in I.
    repeat (destruct I as [I | I]; [injection I as <- <-; reflexivity|]). destruct I.
Qed.

(** Refuted with a variable computed from the states: x' = z and z = x is x' = x, but all
    the stages read z at the beginning of the step. Classical method. *)
Theorem C75_algebraic_refuted : forall tb eqs t h clock hid mem,
  tableau_of "rk4" = Ok tb -> h <> 0%R -> mem (Cur 0, []) <> 0%R ->
  mem (Cur 2, []) = mem (Cur 0, []) ->
  try_step with_algebraic tb with_algebraic_sccs = Ok (Some eqs) ->
  solves t h clock hid eqs mem ->
  (forall v q, hid v (Cur 2, q) = mem (Cur 2, q)) ->
  ~ is_step (method_of kutta) (fun s => s = (0, [])) (fun _ y s => y s) t h
      (current mem) (next mem).
Proof.
  intros tb eqs t h clock hid mem T Hh Hx Hz H Sv Hr St.
  assert (Wt : wf_tableau tb) by (injection T as <-; repeat split; cbn; lia).
  destruct (alg_step tb eqs t h clock hid mem Wt H Sv Hr) as (A & _).
  injection T as <-.
  apply kutta_exponential with (v := (0, [])) in St; [|reflexivity].
  cbn [t_rows] in A. rewrite Hz in A. cbn in A. unfold Q2R in A. cbn in A.
  change (current mem (0, []) <> 0%R) in Hx.
  change (next mem (0, []) = (current mem (0%nat, []) + h * ((0 + 1 * / 6 + 1 * / 3 + 1 * / 3 + 1 * / 6)
    * current mem (0%nat, [])))%R) in A.
  set (x := current mem (0, [])) in *.
  assert (E : (x * (h * h * (12 + 4 * h + h * h)) = 0)%R) by lra.
  apply Rmult_integral in E. destruct E as [E | E]; [contradiction|].
  apply Rmult_integral in E. destruct E as [E | E].
  - apply Rmult_integral in E. tauto.
  - pose proof (Rle_0_sqr (h + 2)). unfold Rsqr in *. lra.
Qed.
Print Assumptions C75_algebraic_refuted.

Example C75_algebraic_example : exists tb eqs, tableau_of "rk4" = Ok tb /\
  try_step with_algebraic tb with_algebraic_sccs = Ok (Some eqs) /\ schedule_of eqs eqs /\
  forall t h clock mem, exists hid, solves t h clock hid eqs (exec t h clock eqs mem) /\
    (forall v q, hid v (Cur 2, q) = exec t h clock eqs mem (Cur 2, q)) /\
    exec t h clock eqs mem (Cur 0, []) = mem (Cur 0, []) /\
    exec t h clock eqs mem (Cur 2, []) = mem (Cur 2, []).
Proof.
  do 2 eexists. split; [vm_compute; reflexivity|]. split; [reflexivity|].
  split; [split; [reflexivity|check_ordered]|].
  intros t h clock mem.
  exists (fun _ => exec t h clock (step_of with_algebraic rk4 with_algebraic_sccs) mem).
  split; [|split; [reflexivity|split; reflexivity]].
  intros v e I. cbn in I.
  repeat (destruct I as [I | I]; [injection I as <- <-; reflexivity|]). destruct I.
Qed.

(** ** C76: the methods are the published ones, with their orders *)

(** Full statement: every name of a variant selects the published method. Proved for all
    the names but cash-karp, see [C76_cash_karp_refuted]. *)
Theorem C76_tableaux_partial : forall name pub orders,
  In (name, (pub, orders)) catalogue -> name <> "cash-karp"%string ->
  exists tb, tableau_of name = Ok tb /\ wf_tableau tb /\
    same_method (method_of_tableau tb) (method_of pub) /\
    (forall j, j < t_rows tb -> (embedded_weights tb j == nth j (p_embedded pub) 0)%Q) /\
    (is_adaptive tb = true <-> p_embedded pub <> []).
Proof. exact catalogue_agrees. Qed.
Print Assumptions C76_tableaux_partial.

Example C76_tableaux_example :
  In ("dormand-prince"%string, (dormand_prince_pair, (5, 4))) catalogue /\
  length catalogue = 11 /\ stages (method_of dormand_prince_pair) = 7.
Proof. cbn. tauto. Qed.

(** The methods of the code have the orders they are known for, and no higher one. *)
Theorem C76_orders_partial : forall name pub p q,
  In (name, (pub, (p, q))) catalogue -> name <> "cash-karp"%string ->
  exists tb, tableau_of name = Ok tb /\
    let M := method_of_tableau tb in
    nodes_are_row_sums M /\
    (order_at_least M (wts M) p /\ ~ order_at_least M (wts M) (S p)) /\
    (0 < q -> order_at_least M (embedded_weights tb) q /\
              ~ order_at_least M (embedded_weights tb) (S q)).
Proof. exact catalogue_orders. Qed.
Print Assumptions C76_orders_partial.

(** The condition of a tree with a branching below the root. *)
Example C76_orders_example : exists tb, tableau_of "fehlberg" = Ok tb /\
  let t := Node [Node [Node []; Node []]; Node []] in
  tree_size t = 5 /\ density t = 15%Z /\
  (elementary_weight (method_of_tableau tb) (wts (method_of_tableau tb)) t == 1 # 15)%Q /\
  ~ (elementary_weight (method_of_tableau tb) (embedded_weights tb) t == 1 # 15)%Q.
Proof.
  eexists. split; [vm_compute; reflexivity|]. cbv zeta. split; [reflexivity|]. split; [reflexivity|].
  split; [apply Qeq_bool_iff; vm_compute; reflexivity|].
  intros H. apply Qeq_bool_iff in H. vm_compute in H. discriminate.
Qed.

(** The published methods, cash-karp among them, have these orders: the catalogue the
    code is compared with is not at fault. *)
Theorem C76_published : forall name pub p q,
  In (name, (pub, (p, q))) catalogue ->
  let M := method_of pub in
  nodes_are_row_sums M /\
  (order_at_least M (wts M) p /\ ~ order_at_least M (wts M) (S p)) /\
  (0 < q -> order_at_least M (fun j => nth j (p_embedded pub) 0%Q) q /\
            ~ order_at_least M (fun j => nth j (p_embedded pub) 0%Q) (S q)).
Proof. exact published_orders. Qed.
Print Assumptions C76_published.

Example C76_published_example :
  In ("cash-karp"%string, (cash_karp_pair, (5, 4))) catalogue.
Proof. cbn. tauto. Qed.

(** Any other name selects the classical method. *)
Theorem C76_other_names : forall name, (forall c, In c catalogue -> fst c <> name) ->
  tableau_of name = tableau_of "rk4".
Proof.
  intros name H.
  assert (K : ~ In name (map fst catalogue)).
  { intros I. apply in_map_iff in I. destruct I as (c & E & I). exact (H c I E). }
  unfold tableau_of at 1.
  repeat match goal with
  | |- context [String.eqb name ?s] =>
      destruct (String.eqb_spec name s) as [E | _];
      [exfalso; subst name; apply K; cbn; tauto|]
  end.
  reflexivity.
Qed.
Print Assumptions C76_other_names.

Example C76_other_names_example : forall c, In c catalogue -> fst c <> "rk45"%string.
Proof. cbn. intuition (subst; discriminate). Qed.

(** Refuted: the variant cash-karp. One weight is 250/521 instead of 250/621, one of the
    embedded weights 13535/55296 instead of 13525/55296. The weights do not sum to one, so
    that x' = 1 is not integrated exactly: the order is zero. *)
Theorem C76_cash_karp_refuted : exists tb, tableau_of "cash-karp" = Ok tb /\
  let M := method_of_tableau tb in
  ~ order_at_least M (wts M) 1 /\ ~ order_at_least M (embedded_weights tb) 1 /\
  forall (S : Type) (dom : S -> Prop) t h (y y' : S -> R) v, dom v -> h <> 0%R ->
    is_step M dom (fun _ _ _ => 1%R) t h y y' -> y' v <> (y v + h)%R.
Proof.
  eexists. split; [vm_compute; reflexivity|]. cbv zeta.
  split; [|split].
  - apply (not_order _ _ _ (Node [])); [cbn; lia|vm_compute; reflexivity].
  - apply (not_order _ _ _ (Node [])); [cbn; lia|vm_compute; reflexivity].
  - intros S dom t h y y' v D Hh St E. apply constant_step with (v := v) in St; [|exact D].
    rewrite E in St.
    assert (W : Q2R (Qsum 6 (wts (method_of_tableau
      match cash_karp with Ok tb => tb | _ => mk_tableau 0 0 [] [] [] [] end))) = 1%R).
    { apply (Rmult_eq_reg_l h); [|exact Hh].
      match goal with |- (h * ?a = _)%R => change (y v + h = y v + h * a)%R in St end. lra. }
    rewrite <- Q2R_1 in W. apply eqR_Qeq, Qeq_bool_iff in W. vm_compute in W. discriminate.
Qed.
Print Assumptions C76_cash_karp_refuted.

(** What the order means for a simulation: a right-hand side that is a polynomial in the
    time, of degree less than the order, is integrated exactly. *)
Theorem C76_polynomials_partial : forall name pub p q m sccs tb eqs l t h clock mem
    (a : nat * point -> nat -> R),
  In (name, (pub, (p, q))) catalogue -> name <> "cash-karp"%string ->
  tableau_of name = Ok tb ->
  wf_model m -> first_order m -> one_equation_each m sccs ->
  (forall x e, gives_derivative m sccs x e -> framed e /\ decoupled m x e) ->
  try_step m tb sccs = Ok (Some eqs) -> schedule_of eqs l ->
  is_ode m sccs (fun w q => mem (Cur w, q)) (fun t _ s => Rsum p (fun k => a s k * t ^ k)%R) ->
  forall s, integrated m sccs s ->
  next (exec t h clock l mem) s = (current mem s
    + Rsum p (fun k => a s k * (((t + h) ^ (S k) - t ^ (S k)) * / INR (S k))))%R.
Proof.
  intros name pub p q m sccs tb eqs l t h clock mem a C N T W Fo U D H P O s I.
  destruct (published_orders name pub p q C) as (Rs & (Od & _) & _).
  apply (quadrature _ (method_of pub) (integrated m sccs) p a t h _ _ Od Rs); [|exact I].
  apply (C75_variant_partial name pub (p, q) m sccs tb eqs l t h clock mem _ C N T W Fo U D H P O).
  reflexivity.
Qed.
Print Assumptions C76_polynomials_partial.

(** x' = 3 time^2 with the classical method. *)
Example C76_polynomials_example :
  let g := (fun t (_ : R) => 3 * t ^ 2)%R in
  let a := fun (s : nat * point) k => match k with 2 => 3%R | _ => 0%R end in
  forall others, is_ode one_state (one_state_sccs g) others
    (fun t _ s => Rsum 4 (fun k => a s k * t ^ k)%R).
Proof.
  cbv zeta. intros others x e p t y (s & [<- | []] & [<- | []] & _) [<- | []] vals _ _ _.
  cbn. ring.
Qed.

(** And x' = l x is followed up to the order: the factor of the step is the one of the
    exponential up to the power p. *)
Theorem C76_linear_partial : forall name pub p q m sccs tb eqs l t h clock mem lambda,
  In (name, (pub, (p, q))) catalogue ->
  name <> "cash-karp"%string -> name <> "euler-backward"%string ->
  tableau_of name = Ok tb ->
  wf_model m -> first_order m -> one_equation_each m sccs ->
  (forall x e, gives_derivative m sccs x e -> framed e /\ decoupled m x e) ->
  try_step m tb sccs = Ok (Some eqs) -> schedule_of eqs l ->
  is_ode m sccs (fun w q => mem (Cur w, q)) (fun _ y s => lambda * y s)%R ->
  exists rest : nat -> R, forall s, integrated m sccs s ->
  next (exec t h clock l mem) s = (current mem s
    * (Rsum (S p) (fun n => (h * lambda) ^ n * / INR (fact n))
       + Rsum (stages (method_of pub) - p) (fun n => (h * lambda) ^ (S (p + n)) * rest n)))%R.
Proof.
  intros name pub p q m sccs tb eqs l t h clock mem lambda C N Nb T W Fo U D H P O.
  destruct (published_orders name pub p q C) as (_ & (Od & _) & _).
  apply (linear_step _ (method_of pub) (integrated m sccs) p lambda t h).
  - exact (published_explicit name pub (p, q) C Nb).
  - exact Od.
  - exact (published_stages name pub p q C).
  - apply (C75_variant_partial name pub (p, q) m sccs tb eqs l t h clock mem _ C N T W Fo U D H P O).
    intros t' y z v E. now rewrite E.
Qed.
Print Assumptions C76_linear_partial.

(** x' = - 2 x. *)
Example C76_linear_example : forall others,
  is_ode one_state (one_state_sccs (fun _ x => - (2) * x)%R) others (fun _ y s => - (2) * y s)%R.
Proof.
  intros others x e p t y (s & [<- | []] & [<- | []] & [E | []]) [<- | []] vals V _ _.
  injection E as <-. cbn. rewrite V; [reflexivity|now left].
Qed.

(** ** C77: the estimate of the error *)

(** Full statement: the estimate is the largest distance between the values of the method
    and the ones of the embedded method. Proved: it is the largest of the signed
    differences, and not negative; the absolute values are missing, see
    [C77_estimate_refuted]. *)
Theorem C77_estimate_partial : forall m tb sccs t h clock mem r y z,
  wf_model m -> wf_tableau tb -> is_adaptive tb = true ->
  (forall s, of_states m s -> integrated m sccs s) ->
  is_update (t_rows tb) (wts (method_of_tableau tb)) (of_states m) h (current mem) (slopes mem) y ->
  is_update (t_rows tb) (embedded_weights tb) (of_states m) h (current mem) (slopes mem) z ->
  estimate_error m tb sccs t h clock mem = Ok (Some r) ->
  (0 <= r)%R /\
  (forall s, of_states m s -> (y s - z s <= r)%R) /\
  (r = 0%R \/ exists s, of_states m s /\ r = (y s - z s)%R).
Proof.
  intros m tb sccs t h clock mem r y z W Wt Ad Int Y Z H.
  assert (Df : forall s, of_states m s -> (y s - z s = h * Rsum (t_rows tb) (fun j =>
     (Q2R (wts (method_of_tableau tb) j) - Q2R (embedded_weights tb j)) * slopes mem j s))%R).
  { intros s I. rewrite (Y s I), (Z s I).
    transitivity (h * (Rsum (t_rows tb) (fun j => Q2R (wts (method_of_tableau tb) j) * slopes mem j s)
      + Rsum (t_rows tb) (fun j => (Q2R (embedded_weights tb j) * slopes mem j s) * (-1))))%R.
    - rewrite Rsum_scale. ring.
    - f_equal. rewrite <- Rsum_plus. apply Rsum_ext. intros j _. ring. }
  destruct (estimate_ok m tb sccs t h clock mem r W Wt Ad) as (A & B & C).
  - intros x ps p Ix Iv Ip. apply Int. split; [exact Ix|]. exists ps. auto.
  - exact H.
  - split; [exact A|]. split.
    + intros [x p] (Ix & ps & Iv & Ip). rewrite Df.
      * exact (B x ps p Ix Iv Ip).
      * split; [exact Ix|]. exists ps. auto.
    + destruct C as [C | (x & ps & p & Ix & Iv & Ip & C)]; [now left|]. right.
      exists (x, p). assert (I : of_states m (x, p)) by (split; [exact Ix|exists ps; auto]).
      split; [exact I|]. now rewrite Df.
Qed.
Print Assumptions C77_estimate_partial.

(** One state with the pair of Heun and Euler: half the difference of the slopes. *)
Example C77_estimate_example : exists tb, tableau_of "heun-euler" = Ok tb /\ wf_tableau tb /\
  is_adaptive tb = true /\
  (forall s, of_states one_state s -> integrated one_state (one_state_sccs (fun _ x => x)) s) /\
  forall t h clock mem, mem (Slope 0 1, []) = 1%R -> mem (Slope 0 2, []) = 2%R -> h = 1%R ->
    estimate_error one_state tb (one_state_sccs (fun _ x => x)) t h clock mem = Ok (Some (1 / 2)%R).
Proof.
  eexists. split; [vm_compute; reflexivity|]. split; [repeat split; cbn; lia|]. split; [reflexivity|]. split.
  - intros [x p] (Ix & ps & Iv & Ip). cbn [fst snd] in *. destruct Ix as [<- | []].
    destruct Iv as [E | [E | []]]; [|discriminate]. injection E as <-. destruct Ip as [<- | []]. eexists _, []. split.
    + eexists. split; [now left|]. split; [left; reflexivity|now left].
    + split; [now left|reflexivity].
  - intros t h clock mem H1 H2 ->. cbn. f_equal. f_equal.
    transitivity (Rmax 0 (1 * (Q2R 0 + Q2R ((1 # 2) - 1) * mem (Slope 0 1, [])
      + Q2R ((1 # 2) - 0) * mem (Slope 0 2, []))))%R; [reflexivity|].
    rewrite H1, H2. unfold Q2R. cbn. unfold Rmax. destruct (Rle_dec _ _); lra.
Qed.

(** Without an embedded method the estimate is zero. *)
Theorem C77_no_embedded : forall name pub orders m sccs t h clock mem,
  In (name, (pub, orders)) catalogue -> p_embedded pub = [] ->
  exists tb, tableau_of name = Ok tb /\
    estimate_error m tb sccs t h clock mem = Ok (Some 0%R).
Proof.
  intros name pub orders m sccs t h clock mem C E.
  assert (N : name <> "cash-karp"%string).
  { intros ->. cbn in C. intuition (try discriminate).
    match goal with K : _ = _ |- _ => injection K as <- <- end. discriminate. }
  destruct (catalogue_agrees name pub orders C N) as (tb & T & _ & _ & _ & A).
  exists tb. split; [exact T|]. unfold estimate_error.
  destruct (is_adaptive tb); [|reflexivity]. destruct A as (A & _). now destruct (A eq_refl).
Qed.
Print Assumptions C77_no_embedded.

Example C77_no_embedded_example :
  In ("rk4"%string, (kutta, (4, 0))) catalogue /\ p_embedded kutta = [].
Proof. cbn. tauto. Qed.

(** Refuted: the sign is kept, so that a state the embedded method gives a larger value
    for does not count. With one state and the pair of Heun and Euler the estimate is zero
    whenever the slopes decrease, whatever the distance. *)
Theorem C77_estimate_refuted : exists tb, tableau_of "heun-euler" = Ok tb /\
  forall g t h clock mem y z,
  (0 < h)%R -> (mem (Slope 0 2, []) < mem (Slope 0 1, []))%R ->
  is_update (t_rows tb) (wts (method_of_tableau tb)) (of_states one_state) h
    (current mem) (slopes mem) y ->
  is_update (t_rows tb) (embedded_weights tb) (of_states one_state) h
    (current mem) (slopes mem) z ->
  estimate_error one_state tb (one_state_sccs g) t h clock mem = Ok (Some 0%R) /\
  (Rabs (y (0%nat, []) - z (0%nat, []))
   = h * (mem (Slope 0 1, []) - mem (Slope 0 2, [])) / 2)%R /\
  (0 < Rabs (y (0%nat, []) - z (0%nat, [])))%R.
Proof.
  eexists. split; [vm_compute; reflexivity|]. intros g t h clock mem y z Hh Hs Y Z.
  assert (Ds : of_states one_state (0, [])).
  { split; [now left|]. exists [[]]. split; now left. }
  pose proof (Y (0, []) Ds) as Ey. pose proof (Z (0, []) Ds) as Ez.
  cbn -[Q2R] in Ey, Ez. unfold slopes in Ey, Ez. cbn -[Q2R] in Ey, Ez.
  unfold Q2R in Ey, Ez. cbn in Ey, Ez.
  set (k1 := mem (Slope 0 1, [])) in *. set (k2 := mem (Slope 0 2, [])) in *.
  change (mem (Slope 0 1, [])) with k1 in Ey, Ez. change (mem (Slope 0 2, [])) with k2 in Ey, Ez.
  assert (P : (0 < h * (k1 - k2))%R) by (apply Rmult_lt_0_compat; lra).
  assert (E : (y (0%nat, []) - z (0%nat, []) = - (h * (k1 - k2) / 2))%R) by lra.
  split; [|split].
  - cbn. f_equal. f_equal.
    transitivity (Rmax 0 (h * (Q2R 0 + Q2R ((1 # 2) - 1) * k1 + Q2R ((1 # 2) - 0) * k2)))%R;
      [reflexivity|].
    unfold Q2R. cbn. unfold Rmax. destruct (Rle_dec _ _); lra.
  - rewrite E, Rabs_Ropp. apply Rabs_right. lra.
  - rewrite E, Rabs_Ropp, Rabs_right; lra.
Qed.
Print Assumptions C77_estimate_refuted.

(** ** C78: an accepted step *)

(** Accepting a step gives every scalar of every state and derivative its next value, and
    changes nothing else. *)
Theorem C78_accept : forall m t h clock mem, wf_model m ->
  let mem' := exec t h clock (accept_equations m) mem in
  (forall v p, scalar_of m v p ->
     In v (map fst (m_ders m)) \/ In v (map snd (m_ders m)) ->
     mem' (Cur v, p) = mem (Fut v, p)) /\
  (forall n p, (forall v, n = Cur v -> ~ scalar_of m v p \/ plain m v) ->
     mem' (n, p) = mem (n, p)).
Proof.
  intros m t h clock mem W mem'. destruct (accept_ok m t h clock mem) as (A & B). split.
  - intros v p (ps & Iv & Ip) F. apply (has_future_iff m v W) in F. exact (A v ps p Iv F Ip).
  - intros n p N. apply B. intros x ps q Iv F Iq E. injection E as -> ->.
    destruct (N x eq_refl) as [K | K].
    + apply K. exists ps. auto.
    + apply (plain_no_future m x W) in K. congruence.
Qed.
Print Assumptions C78_accept.

Example C78_accept_example : wf_model with_algebraic /\ scalar_of with_algebraic 0 [] /\
  In 0 (map fst (m_ders with_algebraic)) /\ In 1 (map snd (m_ders with_algebraic)) /\
  plain with_algebraic 2.
Proof.
  split; [apply with_algebraic_wf|]. split; [exists [[]]; split; now left|].
  split; [now left|]. split; [now left|]. split; intros [E | []]; discriminate.
Qed.

(** Full statement: after a step and the update of the other variables, every equation of a
    derivative holds. Proved after the acceptance, for the equations without the time: the
    other variables still have the values from before the step, see
    [C78_derivative_refuted]; for the time see C80. *)
Theorem C78_derivative_partial : forall m tb sccs eqs t h clock hid mem x e p, wf_model m ->
  try_step m tb sccs = Ok (Some eqs) -> solves t h clock hid eqs mem ->
  gives_derivative m sccs x e -> In p (e_indices e) -> framed e -> time_free e ->
  scalar_of m (e_match e) (e_access e p) ->
  (forall w q, In (w, q) (e_reads e p) -> scalar_of m w q) ->
  let mem' := exec t h clock (accept_equations m) mem in
  forall t', mem' (Cur (e_match e), e_access e p) = e_rhs e t' (fun w q => mem' (Cur w, q)) p.
Proof.
  intros m tb sccs eqs t h clock hid mem x e p W H Sv G Ip Fr Tf Is Rd mem' t'.
  refine (eq_trans (accepted_derivative m tb sccs eqs t h clock hid mem x e p W H Sv G Ip Fr Is Rd) _).
  apply Tf.
Qed.
Print Assumptions C78_derivative_partial.

Example C78_derivative_example :
  exists e, gives_derivative two_states two_states_sccs 0 e /\ e_indices e = [[]] /\
    framed e /\ time_free e /\ scalar_of two_states (e_match e) (e_access e []) /\
    (forall w q, In (w, q) (e_reads e []) -> scalar_of two_states w q) /\
    e_reads e [] <> [].
Proof.
  eexists. split; [|split; [|split; [|split; [|split; [|split]]]]].
  - eexists. split; [now left|]. split; [left; reflexivity|now left].
  - reflexivity.
  - intros t f g p E. cbn. apply E. now left.
  - intros t t' f p. reflexivity.
  - exists [[]]. split; [right; right; now left|now left].
  - intros w q [E | []]. injection E as <- <-. exists [[]]. split; [right; now left|now left].
  - discriminate.
Qed.

(** Refuted with a variable computed from the states: x' = z and z = x. After the step and
    the update of z the derivative is still the old value of z, for every method whose
    weights sum to one. *)
Theorem C78_derivative_refuted : forall tb eqs t h clock hid mem, wf_tableau tb ->
  order_at_least (method_of_tableau tb) (wts (method_of_tableau tb)) 1 ->
  try_step with_algebraic tb with_algebraic_sccs = Ok (Some eqs) ->
  solves t h clock hid eqs mem ->
  (forall v q, hid v (Cur 2, q) = mem (Cur 2, q)) ->
  h <> 0%R -> mem (Cur 0, []) <> 0%R -> mem (Cur 2, []) = mem (Cur 0, []) ->
  let mem' := exec t h clock (accept_equations with_algebraic) mem in
  let mem'' := set_mem mem' (Cur 2, []) (mem' (Cur 0, [])) in
  mem'' (Cur 2, []) = mem'' (Cur 0, []) /\ mem'' (Cur 1, []) <> mem'' (Cur 2, []).
Proof.
  intros tb eqs t h clock hid mem Wt Od H Sv Hr Hh Hx Hz mem' mem''.
  destruct (alg_step tb eqs t h clock hid mem Wt H Sv Hr) as (A & B).
  pose proof (order_one _ _ Od) as B1. cbn [stages method_of_tableau] in B1.
  rewrite B1, Hz in A. rewrite Hz in B.
  destruct (accept_ok with_algebraic t h clock mem) as (C & _).
  assert (C0 : mem' (Cur 0, []) = mem (Fut 0, [])).
  { apply (C 0 [[]] []); [now left|reflexivity|now left]. }
  assert (C1 : mem' (Cur 1, []) = mem (Fut 1, [])).
  { apply (C 1 [[]] []); [right; now left|reflexivity|now left]. }
  assert (D2 : mem'' (Cur 2, []) = mem' (Cur 0, [])) by apply set_mem_same.
  assert (D0 : mem'' (Cur 0, []) = mem' (Cur 0, [])) by (apply set_mem_other; discriminate).
  assert (D1 : mem'' (Cur 1, []) = mem' (Cur 1, [])) by (apply set_mem_other; discriminate).
  split; [congruence|]. rewrite D2, D1, C0, C1, A, B. intros E.
  assert (Z : (h * mem (Cur 0, []) = 0)%R) by lra.
  apply Rmult_integral in Z. tauto.
Qed.
Print Assumptions C78_derivative_refuted.

(** The hypotheses are met: see [C75_algebraic_example]. *)
Example C78_derivative_refuted_example : exists tb, tableau_of "rk4" = Ok tb /\ wf_tableau tb /\
  order_at_least (method_of_tableau tb) (wts (method_of_tableau tb)) 1.
Proof.
  eexists. split; [vm_compute; reflexivity|]. split; [repeat split; cbn; lia|].
  apply check_order_sound. vm_compute. reflexivity.
Qed.

(** The update of the other variables runs the equations that do not give a derivative,
    all of them and in their order, when there is an equation that gives one. *)
Theorem C78_others_partial : forall m sccs l, wf_model m ->
  (exists x e, gives_derivative m sccs x e) ->
  non_state_sccs m sccs = Some l ->
  exists keep : scc -> bool,
    (forall s, keep s = true <->
       forall e, In e (s_equations s) -> ~ In (e_match e) (map snd (m_ders m))) /\
    l = filter keep sccs.
Proof.
  intros m sccs l W (x & e & G) H. unfold non_state_sccs in H.
  destruct (der_matched m sccs) as [ds|] eqn:D; [|discriminate].
  pose proof (der_matched_nonempty m sccs x e W G) as N.
  eexists. split; [|destruct ds; [congruence|]; injection H as <-; reflexivity].
  intros s. cbv beta. rewrite negb_true_iff. split.
  - intros E e' I K. apply in_map_iff in K. destruct K as ([y d] & Ed & K). cbn in Ed. subst d.
    apply (derived_iff m y (e_match e') W) in K.
    assert (existsb (fun e0 => is_some (derived m (e_match e0))) (s_equations s) = true).
    { apply existsb_exists. exists e'. split; [exact I|]. now rewrite K. }
    congruence.
  - intros K. destruct (existsb _ (s_equations s)) eqn:E; [|reflexivity].
    apply existsb_exists in E. destruct E as (e' & I & E).
    destruct (derived m (e_match e')) as [y|] eqn:Dy; [|discriminate].
    apply (derived_iff m y (e_match e') W) in Dy. destruct (K e' I).
    change (e_match e') with (snd (y, e_match e')). now apply in_map.
Qed.
Print Assumptions C78_others_partial.

Example C78_others_example :
  (exists x e, gives_derivative with_algebraic with_algebraic_sccs x e) /\
  option_map (@length scc) (non_state_sccs with_algebraic with_algebraic_sccs) = Some 1 /\
  length with_algebraic_sccs = 2.
Proof.
  split; [|split; reflexivity]. exists 0. eexists. eexists. split; [right; now left|].
  split; [left; reflexivity|now left].
Qed.

(** Refuted for a model without derivatives: nothing is run, and z = time keeps its value
    for ever. *)
Theorem C78_others_refuted : forall m sccs, m_ders m = [] -> non_state_sccs m sccs = Some [].
Proof.
  intros m sccs H. unfold non_state_sccs.
  assert (D : der_matched m sccs = Some []).
  { induction sccs as [|s l IH]; [reflexivity|]. cbn [der_matched].
    assert (E : existsb (fun e => is_some (derived m (e_match e))) (s_equations s) = false).
    { induction (s_equations s) as [|e es IHe]; [reflexivity|]. cbn [existsb].
      unfold derived at 1. rewrite H. exact IHe. }
    rewrite E. exact IH. }
  now rewrite D.
Qed.
Print Assumptions C78_others_refuted.

Example C78_others_refuted_example :
  let m := mk_model [(0, [[]])] [] in
  let sccs := [alone (scalar_equation 0 (fun t _ => t) [] true)] in
  m_ders m = [] /\ sccs <> [].
Proof. split; [reflexivity|discriminate]. Qed.

(** ** C79: forward Euler *)

(** Full statement: every scalar of a state becomes itself plus the step times its
    derivative, and nothing else changes. Proved for the models where no derivative is a
    state; see [C79_update_refuted]. *)
Theorem C79_update_partial : forall ranged h m vals, wf_model m -> first_order m ->
  (forall x ps, In (x, ps) (m_vars m) -> NoDup ps) ->
  let vals' := update_states ranged h m vals in
  (forall x d p, In (x, d) (m_ders m) -> scalar_of m x p ->
     vals' x p = (vals x p + h * vals d p)%R) /\
  (forall v p, ~ of_states m (v, p) -> vals' v p = vals v p).
Proof. exact euler_update. Qed.
Print Assumptions C79_update_partial.

Example C79_update_example : wf_model array_state /\ first_order array_state /\
  (forall x ps, In (x, ps) (m_vars array_state) -> NoDup ps) /\
  scalar_of array_state 0 [1%Z] /\ of_states array_state (0, [0%Z]).
Proof.
  split; [apply array_state_wf|]. split; [apply array_state_first|]. split; [|split].
  - intros x ps [E | [E | []]]; injection E as <- <-;
      (repeat constructor; cbn; intuition discriminate).
  - exists [[0%Z]; [1%Z]]. split; [now left|right; now left].
  - split; [now left|]. exists [[0%Z]; [1%Z]]. split; now left.
Qed.

(** It is the step of the method, also for coupled equations, when the derivatives have
    the values of the right-hand side. *)
Theorem C79_step_partial : forall ranged h m vals f t, wf_model m -> first_order m ->
  (forall x ps, In (x, ps) (m_vars m) -> NoDup ps) ->
  (forall t y z v, (forall w, y w = z w) -> f t y v = f t z v) ->
  (forall x d p, In (x, d) (m_ders m) -> scalar_of m x p ->
     vals d p = f t (fun s => vals (fst s) (snd s)) (x, p)) ->
  is_step (method_of explicit_euler) (of_states m) f t h
    (fun s => vals (fst s) (snd s))
    (fun s => update_states ranged h m vals (fst s) (snd s)).
Proof.
  intros ranged h m vals f t W Fo Nd Ext Hd.
  destruct (C79_update_partial ranged h m vals W Fo Nd) as (A & _).
  exists (fun _ s => f t (fun s => vals (fst s) (snd s)) s). split.
  - intros i s I _. cbn in I. assert (i = 0) as -> by lia. cbn [method_of explicit_euler stages
      p_weights p_matrix p_nodes mat nds wts length Rsum nth].
    rewrite Q2R_0, Rmult_0_l, Rplus_0_r. apply Ext. intros w. ring.
  - intros [x p] (Ix & Is). cbn [fst snd] in Ix, Is |- *. apply in_map_iff in Ix.
    destruct Ix as ([x' d] & E & I). cbn in E. subst x'.
    rewrite (A x d p I Is), (Hd x d p I Is).
    cbn [method_of explicit_euler stages p_weights wts length Rsum nth]. rewrite Q2R_1. ring.
Qed.
Print Assumptions C79_step_partial.

(** x' = y, y' = 1: coupled. *)
Example C79_step_example : let vals := fun v (p : point) => match v with
    | 0 => 5%R | 1 => 7%R | 2 => 7%R | _ => 1%R end in
  let f := fun (t : R) (y : nat * point -> R) (s : nat * point) =>
    match fst s with 0 => y (1, snd s) | _ => 1%R end in
  wf_model two_states /\ first_order two_states /\
  (forall x d p, In (x, d) (m_ders two_states) -> scalar_of two_states x p ->
     vals d p = f 0%R (fun s => vals (fst s) (snd s)) (x, p)) /\
  update_states true (1/2)%R two_states vals 0 [] = (5 + 7 * (1/2))%R.
Proof.
  cbv zeta. split; [apply two_states_wf|]. split; [apply two_states_first|]. split.
  - intros x d p [E | [E | []]] _; injection E as <- <-; reflexivity.
  - reflexivity.
Qed.

(** Refuted when a derivative is itself a state, listed before: the new value of the
    derivative is used. x is listed after its derivative v. *)
Theorem C79_update_refuted : forall ranged h vals,
  let m := mk_model [(1, [[]]); (0, [[]]); (2, [[]])] [(0, 1); (1, 2)] in
  wf_model m /\
  (h <> 0%R -> vals 2 [] <> 0%R ->
   update_states ranged h m vals 0 [] <> (vals 0%nat [] + h * vals 1%nat [])%R).
Proof.
  intros ranged h vals m. split.
  - repeat split; cbn; try (repeat constructor; cbn; intuition discriminate);
      destruct H as [E | [E | []]]; injection E as <- <-; auto.
  - intros Hh Hv E.
    assert (V : update_states ranged h m vals 0 []
      = (vals 0%nat [] + h * (vals 1%nat [] + h * vals 2%nat []))%R).
    { destruct ranged.
      - transitivity (vals 0%nat [] + (vals 1%nat [] + vals 2%nat [] * h) * h)%R;
          [reflexivity|ring].
      - reflexivity. }
    rewrite V in E.
    assert (Z : (h * (h * vals 2%nat []) = 0)%R) by lra.
    apply Rmult_integral in Z. destruct Z as [Z | Z]; [tauto|].
    apply Rmult_integral in Z. tauto.
Qed.
Print Assumptions C79_update_refuted.

(** ** C80: the time in the equations of the derivatives *)

(** Full statement: in the copy of an equation the time becomes the time plus the step.
    Proved: an equation without the time is copied unchanged; see [C80_time_refuted]. *)
Theorem C80_time_free_partial : forall l, (forall o, In o l -> o_kind o <> OTime) ->
  rewrite_times l = l.
Proof. exact rewrite_times_no_time. Qed.
Print Assumptions C80_time_free_partial.

Example C80_time_free_example :
  let l := [mk_op 0 (OOther 0) []; mk_op 1 OAdd [0; 0]] in
  forall o, In o l -> o_kind o <> OTime.
Proof. cbv zeta. intros o [<- | [<- | []]]; discriminate. Qed.

(** Refuted whenever the time occurs: the sum that should replace the time replaces it also
    in its own operands, so that the copy holds an operation that uses its own result. *)
Theorem C80_time_refuted : forall l, (exists o, In o l /\ o_kind o = OTime) ->
  (forall o, In o l -> ~ uses_itself o) ->
  exists o, In o (rewrite_times l) /\ uses_itself o.
Proof.
  intros l (o & I & K) N. apply rewrite_times_self.
  - intros a Ia. apply in_map_iff in Ia. destruct Ia as (b & <- & Ib).
    apply filter_In in Ib. exists b. tauto.
  - intros b Ib Ub. destruct (N b Ib Ub).
  - left. intros E.
    assert (Io : In o (filter (fun o => match o_kind o with OTime => true | _ => false end) l)).
    { apply filter_In. split; [exact I|]. now rewrite K. }
    apply (in_map o_def) in Io. rewrite E in Io. destruct Io.
Qed.
Print Assumptions C80_time_refuted.

(** x' = time: the value 2 of the result is its own first operand. *)
Example C80_time_example : let l := [mk_op 0 OTime []; mk_op 1 (OOther 0) [0]] in
  (exists o, In o l /\ o_kind o = OTime) /\ (forall o, In o l -> ~ uses_itself o) /\
  In (mk_op 4 OAdd [4; 3]) (rewrite_times l).
Proof.
  cbv zeta. split; [eexists; split; [now left|reflexivity]|]. split.
  - intros o [<- | [<- | []]] K; cbn in K; [destruct K|destruct K as [K | []]; discriminate].
  - vm_compute. tauto.
Qed.
