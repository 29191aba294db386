(** * C103: the initial conditions of a model *)
From Coq Require Import ZArith List Bool Arith Lia.
From Verif Require Import Result AccessModel InitModel InitSpec InitProofs.
Import ListNotations.
Local Open Scope nat_scope.

(** [C103, partial]  The system the compiler solves for the initial time has
    exactly the solutions of the initial conditions of the language, whatever the
    equations, the expressions, the dimensions and the order of the attributes.
    What is missing is what [accepted_var] asks, see the refutations below. *)
Theorem C103_initial_equations_partial vars main initial :
  legal_vars vars -> Forall accepted_var vars ->
  exists s, initial_system vars main initial = Ok s /\
    forall m, system_holds s m <-> initially vars main initial m.
Proof. intros L A. destruct (system_ok vars main initial L A) as (s & E & H & _). eauto. Qed.
Print Assumptions C103_initial_equations_partial.

(** The values the solvers begin from are the written start values of the
    variables that are not fixed, and no others. *)
Theorem C103_guesses_partial vars main initial s :
  legal_vars vars -> Forall accepted_var vars -> initial_system vars main initial = Ok s ->
  forall x e, (exists g, In g (is_guesses s) /\ s_var g = x /\ s_exp g = e) <->
    exists v c, In v vars /\ v_name v = x /\ In (MStart c e) (v_mods v) /\
      forall c' f, In (MFixed c' f) (v_mods v) -> has_value f false.
Proof. apply guess_written. Qed.
Print Assumptions C103_guesses_partial.

(** The equations the compiler makes for a variable itself are one for its binding
    and one if it is fixed, so that the count of equations and variables
    is that of the source. *)
Theorem C103_counts_partial vars main initial s v :
  legal_vars vars -> Forall accepted_var vars -> initial_system vars main initial = Ok s -> In v vars ->
  exists b, (b = 1 <-> exists c f, In (MFixed c f) (v_mods v) /\ has_value f true) /\ b <= 1 /\
  length (filter (fun e => match e with EAssign y _ _ _ => Nat.eqb y (v_name v) | EGiven _ => false end) (is_equations s)) =
    (if v_binding v then 1 else 0) + b.
Proof. apply count_ok. Qed.
Print Assumptions C103_counts_partial.

(** A parameter [p = 3], an array [x[2]] with [each start = p, fixed = {true, true}],
    a variable [y = 2 * x[1]] and a variable [z(start = 5)]. *)
Example p_var := {| v_name := 0; v_dims := []; v_readonly := true; v_binding := Some (const_exp 3); v_mods := [] |}.
Example x_var := {| v_name := 1; v_dims := [2%Z]; v_readonly := false; v_binding := None;
  v_mods := [MAttr false; MFixed false (FArr [FLit true; FLit true]); MStart true {| ie_rank := 0; ie_val := fun m _ => m 0 [] |}] |}.
Example y_var := {| v_name := 2; v_dims := []; v_readonly := false;
  v_binding := Some {| ie_rank := 0; ie_val := fun m _ => (2 * m 1%nat [0])%Z |}; v_mods := [] |}.
Example z_var := {| v_name := 3; v_dims := []; v_readonly := false; v_binding := None; v_mods := [MStart false (const_exp 5)] |}.
Example init_vars := [p_var; x_var; y_var; z_var].

Example C103_hypotheses : legal_vars init_vars /\ Forall accepted_var init_vars.
Proof.
  split; [split|].
  - repeat constructor; cbn; intuition discriminate.
  - repeat (apply Forall_cons || apply Forall_nil); unfold legal_var; repeat split; cbn; try lia; intros;
      repeat match goal with H : _ \/ _ |- _ => destruct H | H : False |- _ => destruct H | H : _ = _ |- _ => try discriminate H; injection H; clear H; intros; subst end;
      cbn; auto; try tauto; try discriminate; repeat split; auto; lia.
  - constructor; [|constructor; [|constructor; [|constructor; [|constructor]]]]; split; cbn; intros; try discriminate;
      repeat match goal with H : _ \/ _ |- _ => destruct H | H : False |- _ => destruct H | H : _ = _ |- _ => try discriminate H; injection H; clear H; intros; subst end.
    exists true. split; [right; cbn; auto|]. intros _. split; [|discriminate]. eexists _, _. right. right. left. reflexivity.
Qed.
Example C103_system : exists s, initial_system init_vars [] [] = Ok s /\
  length (is_equations s) = 3 /\ map s_var (is_guesses s) = [3] /\
  forall m, system_holds s m -> m 0 [] = 3%Z /\ m 1 [1%Z] = 3%Z /\ m 2 [] = 6%Z.
Proof.
  destruct C103_hypotheses as (L & A). destruct (C103_initial_equations_partial _ [] [] L A) as (s & E & H).
  exists s. split; [exact E|]. pose proof E as E'. cbv in E'. injection E' as E'. split; [now rewrite <- E'|]. split; [now rewrite <- E'|]. clear E'.
  intros m M. apply H in M as (_ & _ & M).
  destruct (M p_var [] (or_introl eq_refl) (Forall2_nil _)) as (P & _). specialize (P _ eq_refl). cbn in P.
  assert (D : forall i, (0 <= i < 2)%Z -> m 1 [i] = 3%Z).
  { intros i I. destruct (M x_var [i]) as (_ & X); [cbn; auto|repeat constructor; lia|].
    cbn [v_name x_var] in X. rewrite <- P. apply X; [|discriminate|].
    - left. eexists. split; [cbn; auto|]. eapply fixed_arr with (f := FLit true); [|constructor].
      assert (i = 0 \/ i = 1)%Z as [-> | ->] by lia; reflexivity.
    - right. left. eexists. split; [cbn; auto|]. reflexivity. }
  split; [exact P|]. split; [apply D; lia|].
  destruct (M y_var []) as (Y & _); [cbn; auto|constructor|]. specialize (Y _ eq_refl). cbn -[Z.mul] in Y. rewrite Y, D; lia.
Qed.

(** [C103, refuted]  A parameter with a start value, no binding and no [fixed] has
    the start value in the language; the compiler makes no equation for it, so
    every value is a solution. *)
Theorem C103_parameter_start_refuted x dims z : Forall (fun n => (0 < n)%Z) dims ->
  let v := {| v_name := x; v_dims := dims; v_readonly := true; v_binding := None; v_mods := [MStart true (const_exp z)] |} in
  legal_vars [v] /\
  exists s, initial_system [v] [] [] = Ok s /\ (forall m, system_holds s m) /\
    (forall m, initially [v] [] [] m <-> forall idx, in_dims dims idx -> m x idx = z) /\
    exists m, system_holds s m /\ ~ initially [v] [] [] m.
Proof.
  intros D v. split.
  { split; [repeat constructor; cbn; tauto|]. apply Forall_cons; [|apply Forall_nil].
    unfold legal_var; repeat split; cbn; try lia; intros; intuition try discriminate.
    injection H0 as <-. cbn. lia. }
  eexists. split. { cbn. rewrite Nat.eqb_refl. cbn. reflexivity. }
  assert (H : forall m, initially [v] [] [] m <-> forall idx, in_dims dims idx -> m x idx = z).
  { intros m. split.
    - intros (_ & _ & H) idx I. apply (H v idx (or_introl eq_refl) I); [|auto|].
      + right. right. cbn. repeat split; auto. intros b f [K|[]]. discriminate.
      + right. left. eexists. split; [now left|]. reflexivity.
    - intros H. split; [intros p []|]. split; [intros p []|]. intros w idx [<-|[]] I. split; [discriminate|].
      intros _ _ z' Z. cbn. rewrite (H idx I). destruct Z as [(e & [K|[]] & _)|[(e & [K|[]] & ->)|(N & _)]]; [discriminate|injection K as <-; reflexivity|].
      exfalso. eapply N. now left. }
  assert (T : forall m, system_holds {| is_equations := []; is_guesses := [{| s_var := x; s_fixed := false; s_each := true; s_implicit := false; s_exp := const_exp z |}] |} m).
  { intros m e []. }
  split; [exact T|]. split; [exact H|].
  exists (fun _ _ => (z + 1)%Z). split; [apply T|]. rewrite H. intros K. specialize (K _ (zero_index _ D)). cbn in K. lia.
Qed.
Print Assumptions C103_parameter_start_refuted.

(** [C103, refuted]  [fixed = true] without a start value means the value zero; the
    compiler only looks at [fixed] when there is a start value. *)
Theorem C103_fixed_without_start_refuted x ro dims : Forall (fun n => (0 < n)%Z) dims ->
  let v := {| v_name := x; v_dims := dims; v_readonly := ro; v_binding := None; v_mods := [MFixed true (FLit true)] |} in
  legal_vars [v] /\
  exists s, initial_system [v] [] [] = Ok s /\ (forall m, system_holds s m) /\
    (forall m, initially [v] [] [] m <-> forall idx, in_dims dims idx -> m x idx = 0%Z) /\
    exists m, system_holds s m /\ ~ initially [v] [] [] m.
Proof.
  intros D v. split.
  { split; [repeat constructor; cbn; tauto|]. apply Forall_cons; [|apply Forall_nil].
    unfold legal_var; repeat split; cbn; try lia; intros; intuition try discriminate.
    injection H0 as <-. exact Logic.I. }
  eexists. split. { cbn. reflexivity. }
  assert (H : forall m, initially [v] [] [] m <-> forall idx, in_dims dims idx -> m x idx = 0%Z).
  { intros m. split.
    - intros (_ & _ & H) idx I. apply (H v idx (or_introl eq_refl) I); [|auto|].
      + right. left. eexists. split; [now left|constructor].
      + right. right. split; [|reflexivity]. intros b e [K|[]]. discriminate.
    - intros H. split; [intros p []|]. split; [intros p []|]. intros w idx [<-|[]] I. split; [discriminate|].
      intros _ _ z Z. cbn. rewrite (H idx I). destruct Z as [(e & [K|[]] & _)|[(e & [K|[]] & _)|(N & ->)]]; [discriminate|discriminate|reflexivity]. }
  assert (T : forall m, system_holds {| is_equations := []; is_guesses := [] |} m) by (intros m e []).
  split; [exact T|]. split; [exact H|].
  exists (fun _ _ => 1%Z). split; [apply T|]. rewrite H. intros K. specialize (K _ (zero_index _ D)). discriminate.
Qed.
Print Assumptions C103_fixed_without_start_refuted.

(** [C103, refuted]  A parameter with a binding and a fixed start value has the
    value of the binding; the compiler makes an equation of each, so there is no
    solution when they differ. *)
Theorem C103_binding_and_start_refuted x dims a b : Forall (fun n => (0 < n)%Z) dims -> a <> b ->
  let v := {| v_name := x; v_dims := dims; v_readonly := true;
              v_binding := Some {| ie_rank := length dims; ie_val := fun _ _ => a |};
              v_mods := [MStart true (const_exp b); MFixed true (FLit true)] |} in
  legal_vars [v] /\ (exists m, initially [v] [] [] m) /\
  exists s, initial_system [v] [] [] = Ok s /\ forall m, ~ system_holds s m.
Proof.
  intros D N v. split; [|split].
  { split; [repeat constructor; cbn; tauto|]. apply Forall_cons; [|apply Forall_nil].
    unfold legal_var; repeat split; cbn; try lia; intros; intuition try discriminate.
    - injection H as <-. reflexivity.
    - injection H0 as <-. cbn. lia.
    - injection H as <-. exact Logic.I. }
  { exists (fun _ _ => a). split; [intros p []|]. split; [intros p []|]. intros w idx [<-|[]] I. split.
    - intros e E. injection E as <-. reflexivity.
    - intros _ K. discriminate (K eq_refl). }
  eexists. split.
  { cbn. rewrite Nat.eqb_refl. cbn. unfold start_equation. cbn. rewrite Nat.eqb_refl. cbn. rewrite Nat.leb_refl. cbn. reflexivity. }
  intros m H. pose proof (H _ (or_introl eq_refl) _ (zero_index _ D)) as H1.
  pose proof (H _ (or_intror (or_introl eq_refl)) _ (zero_index _ D)) as H2. cbn in H1, H2. congruence.
Qed.
Print Assumptions C103_binding_and_start_refuted.

(** [C103, refuted]  An array of [fixed] values that are not all the same is legal;
    the compiler aborts. *)
Theorem C103_fixed_array_refuted x ro l e c : ie_rank e = 0 ->
  Forall (fun f => f = FLit true \/ f = FLit false) l -> In (FLit true) l -> In (FLit false) l ->
  let v := {| v_name := x; v_dims := [Z.of_nat (length l)]; v_readonly := ro; v_binding := None;
              v_mods := [MStart true e; MFixed c (FArr l)] |} in
  (c = false -> legal_vars [v]) /\ initial_system [v] [] [] = Bad.
Proof.
  intros R A T F v. split.
  { intros ->. split; [repeat constructor; cbn; tauto|]. constructor; [|constructor].
    split; [cbn; lia|]. split; [cbn; lia|]. split; [discriminate|].
    split. { intros e' [K|[K|[]]]; discriminate. }
    split. { intros e' [K|[K|[]]]; [|discriminate]. injection K as <-. rewrite R. lia. }
    split; [|intros f [K|[K|[]]]; discriminate].
    intros f [K|[K|[]]]; [discriminate|]. injection K as <-. apply shaped_all. split; [reflexivity|].
    split. { destruct l; [destruct T|cbn; lia]. }
    rewrite Forall_forall in A |- *. intros f I. destruct (A f I) as [-> | ->]; exact Logic.I. }
  unfold initial_system. cbn [map_res]. unfold lower_attributes. cbn [v v_mods get_start get_fixed].
  rewrite (mixed_uniform l A T F). reflexivity.
Qed.
Print Assumptions C103_fixed_array_refuted.

(** [C103, refuted]  The [each] the compiler keeps for a start value is that of the
    first attribute: [x(each fixed = b, start = e)] loses or gains one. *)
Theorem C103_each_refuted x dims ro c e b :
  exists s, lower_attributes {| v_name := x; v_dims := dims; v_readonly := ro; v_binding := None;
      v_mods := [MFixed c (FLit b); MStart (negb c) e] |} = Ok [s] /\
    s_exp s = e /\ s_each s <> negb c.
Proof. eexists. split; [reflexivity|]. split; [reflexivity|]. now destruct c. Qed.
Print Assumptions C103_each_refuted.
