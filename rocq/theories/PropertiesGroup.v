(** Property C41: explicitation of equations with several occurrences of the
    matched variable. *)
From Coq Require Import List Bool ZArith QArith Reals Qreals Lra Lia.
From Verif Require Import RangeModel MDRangeModel Result BoxSetModel AccessModel Spec AccessSpec BoxListProofs BoxSetProofs AccessProofs PropertiesAccess
  SymModel SymSpec SymProofs PropertiesSym GroupModel GroupSpec GroupProofs.
Import ListNotations.
Local Open Scope R_scope.

(** C41: if the grouping gives an equation (l, r), then l is the access to be
    written and, whenever r is defined (the collected coefficient is not zero),
    the original equation is defined and has the same solutions. *)
Theorem C41_group : forall (A : Type) avar aimg asame cfold fenv elem cell (eq : expr A * expr A) v m l r,
  elements_ok avar aimg asame elem eq ->
  groupLeftHandSide avar aimg asame cfold eq m (getWriteAccesses avar aimg (getAccesses eq) v m) = Ok (Some (l, r)) ->
  exists a, leaf_of a eq /\ avar a = v /\ l = EAcc a /\
    let val := leaf_value avar elem cell in
    (value val fenv r <> None -> defined val fenv eq /\ (holds val fenv eq <-> holds val fenv (l, r))).
Proof.
  intros A avar aimg asame cfold fenv elem cell eq v m l r O H.
  destruct (group_correct avar aimg asame cfold fenv elem cell eq O v m l r H) as ([[s p] a] & W & E & C). exists a.
  apply writes_in in W as (W & V & _). apply getAccesses_leaf in W as [_ W]. cbn [snd] in *. split; [exact W|]. split; [exact V|]. split; [exact E|].
  cbn zeta. intros D. apply C. split; [rewrite E; discriminate|exact D].
Qed.
Print Assumptions C41_group.

(** The whole explicitation, by inversion or by grouping. *)
Theorem C41_explicit : forall (A : Type) avar aimg asame cfold inv fenv elem cell (eq : expr A * expr A) v m l r,
  inverse_ok fenv inv -> elements_ok avar aimg asame elem eq ->
  explicitate avar aimg asame cfold inv eq v m = Ok (Some (l, r)) ->
  exists a, leaf_of a eq /\ avar a = v /\ l = EAcc a /\
    let val := leaf_value avar elem cell in
    (defined val fenv eq -> defined val fenv (l, r) -> (holds val fenv eq <-> holds val fenv (l, r))).
Proof.
  intros A avar aimg asame cfold inv fenv elem cell eq v m l r I O H.
  destruct (explicit_correct avar aimg asame cfold inv fenv elem cell eq O I v m l r H) as ([[s p] a] & W & E & C). exists a.
  apply writes_in in W as (W & V & _). apply getAccesses_leaf in W as [_ W]. cbn [snd] in *. auto.
Qed.
Print Assumptions C41_explicit.

(** ** The accesses of an equation with indices E: the leaves are a variable and
    an access function. *)
Definition access := (nat * afun)%type.
Definition access_image (E : bset) (a : access) : bset := match af_map_set (snd a) E with Ok t => t | _ => [] end.
Definition access_same (a b : access) : bool := af_eq (snd a) (snd b).
(** At the iteration p a leaf denotes the element its access function gives, or
    the only element of a scalar variable. *)
Definition denotes (m : mlir) (n : nat) (E : bset) (p : point) (a : access) (q : point) : Prop :=
  let k := af_results (snd a) in
  ((1 <= k)%nat /\ built_access m n k (snd a) /\ (exists t, af_map_set (snd a) E = Ok t) /\ maps_to (snd a) p q)
  \/ (k = 0%nat /\ af_map_set (snd a) E = Ok [] /\ q = []).
Theorem C41_accesses : forall m n E p elem (eq : expr access * expr access) cfold inv fenv cell v idx l r,
  mlir_ok m -> (1 <= n)%nat -> bs_of n E -> in_boxes p E -> inverse_ok fenv inv ->
  (forall a, leaf_of a eq -> denotes m n E p a (elem a)) ->
  (forall a b, leaf_of a eq -> leaf_of b eq -> fst a = fst b ->
     af_results (snd a) = af_results (snd b) /\ same_objects (snd a) (snd b)) ->
  explicitate fst (access_image E) access_same cfold inv eq v idx = Ok (Some (l, r)) ->
  exists a, leaf_of a eq /\ fst a = v /\ l = EAcc a /\
    let val := fun a : access => cell (fst a) (elem a) in
    (defined val fenv eq -> defined val fenv (l, r) -> (holds val fenv eq <-> holds val fenv (l, r))).
Proof.
  intros m n E p elem eq cfold inv fenv cell v idx l r M N S P I D R H.
  apply (C41_explicit access fst (access_image E) access_same cfold inv fenv elem cell eq v idx l r I); [|exact H].
  split.
  - intros a La. unfold access_image. destruct (D a La) as [(K & B & (t & T) & Q)|(_ & T & Q)]; rewrite T; [|exact Q].
    assert (In_t : in_boxes (elem a) t).
    { apply (C20_image_superset_partial m n _ (snd a) E t M B N K S T p); auto. destruct Q as (s & Q1 & Q2). exists s. split; auto. now apply Q2. }
    destruct t; [|exact In_t]. destruct In_t as (? & [] & _).
  - intros a b La Lb V E0. destruct (R a b La Lb V) as [R1 R2]. destruct (C24_equal_partial _ _ R1 R2 E0) as [_ EQ].
    destruct (D a La) as [(K & B & T & Q)|(K & T & Q)], (D b Lb) as [(K' & B' & T' & Q')|(K' & T' & Q')]; try lia.
    + destruct Q as (s & Q1 & Q2), Q' as (s' & Q1' & Q2'). rewrite EQ, Q1' in Q1. inversion Q1; subst. apply Q2'. now apply Q2.
    + congruence.
Qed.
Print Assumptions C41_accesses.

(** for i in 0:4 loop 3 * (x[i] + y) - 5 = 2 * y - x[i] becomes
    x[i] = ((0 + 2 * y) - (0 + 3 * y - 5)) / ((0 + 3) - (0 - 1)), up to the form
    of the sums. *)
Definition idx5 : bset := [[rg 0 5]].
Definition acc_x : access := (0%nat, AFRoto 1 [ADim 0]).
Definition acc_y : access := (1%nat, AFAffineConstant 1 []).
Definition group_example : expr access * expr access :=
  (EBin false BSub (EBin false BMul (EConst 3) (EBin false BAdd (EAcc acc_x) (EAcc acc_y))) (EConst 5),
   EBin false BSub (EBin false BMul (EConst 2) (EAcc acc_y)) (EAcc acc_x)).
Definition no_fold {A} (e : expr A) : option Q := match e with EConst q => Some q | _ => None end.
Example C41_example :
  (exists r, explicitate fst (access_image idx5) access_same no_fold (fun _ _ => None) group_example 0 idx5 = Ok (Some (EAcc acc_x, r)))
  /\ (forall a, leaf_of a group_example -> denotes mlir0 1 idx5 [3%Z] a (match fst a with O => [3%Z] | _ => [] end))
  /\ (forall a b, leaf_of a group_example -> leaf_of b group_example -> fst a = fst b ->
       af_results (snd a) = af_results (snd b) /\ same_objects (snd a) (snd b)).
Proof.
  assert (L : forall a, leaf_of a group_example -> a = acc_x \/ a = acc_y).
  { intros a H. apply leaf_of_has in H. cbn in H. tauto. }
  split; [eexists; vm_compute; reflexivity|]. split.
  - intros a H. destruct (L a H) as [-> | ->].
    + left. split; [cbn; lia|]. split; [|split].
      * apply (built_from_map mlir0 1 [ADim 0]); [repeat constructor|reflexivity].
      * eexists. reflexivity.
      * exists [mdrange_of_point [3%Z]]. split; [reflexivity|]. intros x. apply in_boxes_point.
    + right. repeat split.
  - intros a b Ha Hb V. destruct (L a Ha) as [-> | ->], (L b Hb) as [-> | ->]; try discriminate V; (split; [reflexivity|]);
      intros i s d deps s' deps' F; destruct F.
Qed.

(** If every access to the variable reads only matched indices or none of them,
    the right-hand side does not read the elements that the equation writes. *)
Theorem C41_solved : forall (A : Type) avar aimg asame cfold inv elem (eq : expr A * expr A) v m l r,
  elements_ok avar aimg asame elem eq ->
  (forall f k g idx, inv f k = Some (g, idx) -> ~ In k idx) ->
  (forall b, leaf_of b eq -> avar b = v -> all_or_none m (aimg b)) ->
  explicitate avar aimg asame cfold inv eq v m = Ok (Some (l, r)) ->
  exists a, l = EAcc a /\ forall b, subexpr (EAcc b) r -> avar b = v ->
    m <> [] /\ forall p, in_boxes p (aimg a) -> ~ in_boxes p (aimg b).
Proof.
  intros A avar aimg asame cfold inv elem eq v m l r O I C H.
  destruct (explicit_solved avar aimg asame cfold inv elem eq O I v m l r C H) as (a & E & K). exists a. split; [exact E|].
  intros b Hb V. apply K; auto. now apply has_subexpr.
Qed.
Print Assumptions C41_solved.
Example C41_solved_example :
  (forall b, leaf_of b group_example -> fst b = 0%nat -> all_or_none idx5 (access_image idx5 b))
  /\ exists r, explicitate fst (access_image idx5) access_same no_fold (fun _ _ => None) group_example 0 idx5 = Ok (Some (EAcc acc_x, r))
     /\ (exists b, subexpr (EAcc b) r) /\ ~ subexpr (EAcc acc_x) r.
Proof.
  split.
  - intros b H V. apply leaf_of_has in H. assert (b = acc_x) as ->.
    { cbn in H. destruct H as [[[[]|[H|H]]|[]]|[[[]|H]|H]]; subst; auto; discriminate V. }
    right. split; [discriminate|]. split; [vm_compute; discriminate|]. left. intros p P. vm_compute in P. exact P.
  - eexists. split; [vm_compute; reflexivity|]. split.
    + exists acc_y. apply has_subexpr. cbn. tauto.
    + intros H. apply has_subexpr in H. cbn in H. unfold acc_x in H. intuition discriminate.
Qed.

(** The coefficient may only be made of constants and divisors: y * x + z * x = 1
    is linear in x but is not made explicit (the optional boolean of line 9193 is
    used as a boolean). *)
Theorem C41_coefficients_refuted : exists (eq : expr nat * expr nat),
  explicitate (fun a => a) (fun _ => []) Nat.eqb no_fold (fun _ _ => None) eq 0 [] = Ok None
  /\ forall (val : nat -> R) fenv, holds val fenv eq <-> (val 1%nat + val 2%nat) * val 0%nat = 1.
Proof.
  exists (EBin false BAdd (EBin false BMul (EAcc 1%nat) (EAcc 0%nat)) (EBin false BMul (EAcc 2%nat) (EAcc 0%nat)), EConst 1).
  split; [reflexivity|]. intros val fenv. unfold holds. cbn. unfold Q2R. cbn. split.
  - intros (x & X & Y). inversion X. inversion Y. lra.
  - intros H. exists 1. split; f_equal; lra.
Qed.
Print Assumptions C41_coefficients_refuted.

(** An assertion fails on x[i] + 2 * x[i] + x[i + 1] = 0. *)
Definition acc_x1 : access := (0%nat, AFRoto 1 [AAdd (ADim 0) (AConst 1)]).
Theorem C41_assertion_refuted : exists (eq : expr access * expr access),
  explicitate fst (access_image idx5) access_same no_fold (fun _ _ => None) eq 0 idx5 = Bad.
Proof.
  exists (EBin false BAdd (EBin false BAdd (EAcc acc_x) (EBin false BMul (EConst 2) (EAcc acc_x))) (EAcc acc_x1), EConst 0).
  vm_compute. reflexivity.
Qed.
Print Assumptions C41_assertion_refuted.

(** The result may still read the element it writes: x[i] + x[6 - i] = 1 becomes
    x[i] = 1 - x[6 - i], with x[3] on both sides for i = 3. *)
Definition acc_m : access := (0%nat, AFGeneric 1 [DSub (DConst 6) (DDim 0)]).
Theorem C41_self_refuted : exists (eq : expr access * expr access) a b r p q,
  explicitate fst (access_image idx5) access_same no_fold (fun _ _ => None) eq 0 idx5 = Ok (Some (EAcc a, r))
  /\ subexpr (EAcc b) r /\ in_boxes p idx5 /\ fst a = fst b /\ maps_to (snd a) p q /\ maps_to (snd b) p q.
Proof.
  exists (EBin false BAdd (EAcc acc_x) (EAcc acc_m), EConst 1), acc_x, acc_m, (EBin false BSub (EConst 1) (EAcc acc_m)), [3%Z], [3%Z].
  split; [vm_compute; reflexivity|]. split; [apply sub_right; constructor|]. split.
  { eexists. split; [now left|]. unfold rg. repeat constructor; cbn; lia. }
  split; [reflexivity|].
  assert (Q : forall x, in_boxes x [mdrange_of_point [3%Z]] <-> x = [3%Z]).
  { intros x. apply in_boxes_point. }
  split; (eexists; split; [reflexivity|exact Q]).
Qed.
Print Assumptions C41_self_refuted.
