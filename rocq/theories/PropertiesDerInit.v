(** Property C120: every element of a derivative is determined. *)

From Coq Require Import ZArith List Bool Lia.
From Verif Require Import RangeModel MDRangeModel Spec Result RTreeModel IndexSetModel IndexSetIterModel
  IndexSetSpec DerInitModel DerInitSpec DerInitProofs.
Import ListNotations.
Local Open Scope nat_scope.

(** ** C120. Each element of a derivative that the model does not determine is set
    to zero by exactly one equation; no equation is about an element that does
    not exist. Missing in the partial theorem: that elements which the model
    differentiates get no equation, which needs exact removal from index sets,
    and that the removal ends without undefined behaviour (C09). *)
Theorem C120_equations_partial : forall l ss qs, Forall valid_entry l -> NoDup (map de_derivative l) ->
  processModel l = Ok (ss, qs) ->
  (forall e p, In e l -> de_dims e <> [] -> in_shape p (de_dims e) -> ~ derived e p ->
     exists i, sets_zero qs i (de_derivative e) p /\
       forall j, sets_zero qs j (de_derivative e) p -> j = i) /\
  (forall i d p, sets_zero qs i d p ->
     exists e, In e l /\ d = de_derivative e /\ (length p = length (de_dims e) -> in_shape p (de_dims e))).
Proof.
  intros l ss qs V ND H. destruct (model_ok l ss qs V H) as (_ & B & C & D). specialize (C ND). split.
  - intros e p He N Sh Nd. destruct (D e p He N Sh Nd) as (q & Hq & Ev & Hh).
    apply In_nth_error in Hq as [i Hi]. exists i. split; [exists q; auto|].
    intros j (q' & Hj & Ev' & _). eapply (proj1 (NoDup_nth_error (map dq_variable qs)) C).
    + rewrite map_length. apply nth_error_Some. congruence.
    + rewrite !nth_error_map, Hi, Hj. cbn. congruence.
  - intros i d p (q & Hi & Ev & Hh). apply nth_error_In in Hi. destruct (B q Hi) as (e & He & E & _ & K).
    exists e. split; auto. split; [congruence|]. auto.
Qed.
Print Assumptions C120_equations_partial.

(** For arrays of at most 16 elements the pass is defined, and sets to zero no
    element that the model differentiates. *)
Theorem C120_small_arrays : forall l, Forall valid_entry l -> NoDup (map de_derivative l) ->
  Forall (fun e => fold_left Z.mul (de_dims e) 1 <= 16)%Z l ->
  exists ss qs, processModel l = Ok (ss, qs) /\
    forall e p, In e l -> de_dims e <> [] -> in_shape p (de_dims e) ->
      ((exists i, sets_zero qs i (de_derivative e) p) <-> ~ derived e p).
Proof.
  intros l V ND Sz. destruct (model_small l V Sz ND) as (ss & qs & E & H). exists ss, qs. split; auto.
  intros e p He N Sh. split.
  - intros (i & q & Hi & Ev & K). eapply H; eauto. eapply nth_error_In; eauto.
  - intros Nd. destruct (C120_equations_partial l ss qs V ND E) as [A _].
    destruct (A e p He N Sh Nd) as (i & Hi & _). eauto.
Qed.
Print Assumptions C120_small_arrays.

(** Every derivative, and nothing else, gets the start value zero, not fixed. *)
Theorem C120_starts : forall l ss qs, Forall valid_entry l -> processModel l = Ok (ss, qs) ->
  map ds_variable ss = map de_derivative l /\
  Forall (fun s => ds_value s = 0%Z /\ ds_fixed s = false) ss.
Proof.
  intros l ss qs V H. destruct (model_ok l ss qs V H) as (-> & _). split.
  - now rewrite map_map.
  - apply Forall_map, Forall_forall. auto.
Qed.
Print Assumptions C120_starts.

(** Without derived indices every element of an array is set to zero: the pass
    is then defined whatever the size. *)
Theorem C120_none_derived : forall v d dims, dims <> [] -> Forall (fun n => 0 < n)%Z dims ->
  exists ss q, processModel [mkDentry v d dims None] = Ok (ss, [q]) /\ dq_variable q = d /\
    forall p, length p = length dims -> (holds (dq_indices q) p <-> in_shape p dims).
Proof. exact none_derived. Qed.
Print Assumptions C120_none_derived.

(** A matrix of which the first two rows and one more element are derived, and
    a scalar. *)
Example C120_case : exists t l ss qs,
  is_setFromRanges isMin isMax [[mkRange 0 2; mkRange 0 3]; [mkRange 3 4; mkRange 1 2]]%Z = Ok t /\
  l = [mkDentry 0 10 [4; 3]%Z (Some t); mkDentry 1 11 [] None] /\
  Forall valid_entry l /\ NoDup (map de_derivative l) /\ processModel l = Ok (ss, qs) /\
  in_shape [3; 0]%Z [4; 3]%Z /\ is_contains_point t [3; 0]%Z = Ok false /\ sets_zero qs 0 10 [3; 0]%Z /\
  is_contains_point t [3; 1]%Z = Ok true /\ ~ sets_zero qs 0 10 [3; 1]%Z /\ length qs = 1.
Proof.
  destruct (is_setFromRanges isMin isMax [[mkRange 0 2; mkRange 0 3]; [mkRange 3 4; mkRange 1 2]]%Z) as [t| |] eqn:Et;
    [|vm_compute in Et; discriminate|vm_compute in Et; discriminate].
  exists t. do 3 eexists. split; [reflexivity|]. split; [reflexivity|]. split; [|split; [|split; [|split; [|split; [|split]]]]].
  - constructor; [|constructor; [|constructor]]; split.
    + repeat constructor.
    + intros s Hs. injection Hs as <-. exists false. refine (built_boxes 2 _ t _ Et).
      repeat constructor; try discriminate; unfold range_ok; cbn; lia.
    + constructor.
    + discriminate.
  - repeat constructor; cbn; intuition discriminate.
  - vm_compute in Et. injection Et as <-. vm_compute. reflexivity.
  - repeat constructor; lia.
  - vm_compute in Et. injection Et as <-. vm_compute. reflexivity.
  - eexists. split; [reflexivity|]. split; [reflexivity|]. vm_compute. reflexivity.
  - vm_compute in Et. injection Et as <-. split; [vm_compute; reflexivity|]. split; [|reflexivity].
    intros (q & Hq & _ & K). injection Hq as <-. vm_compute in K. discriminate.
Qed.
