(** C113: calls with records pass each component to its parameter and take each result
    from its output. *)
From Coq Require Import List Arith Bool Lia.
Import ListNotations.
From Verif Require Import RecordRefModel RecordCallModel RecordCallSpec RecordCallProofs.

(** When the records among the arguments of a call and among the parameters of the
    function have been replaced with their components, in any orders, each new argument
    is for the new parameter at its place (and has its name, if names are given): it is
    the same component of the argument that was for the same record parameter.
    Missing: arrays of records, below. *)
Theorem C113_arguments_partial : forall order ps args inputs args',
  fits args inputs -> unpack_args order args = Some args' ->
  no_record_args args' -> no_record_vars (expand_vars ps inputs) ->
  Forall2 (passes args inputs) args' (expand_vars ps inputs).
Proof. intros; eapply args_pass; eauto. Qed.
Print Assumptions C113_arguments_partial.

(** f(r, 5, r2) with two records {1: scalar, 2: record {3, 4}}. *)
Definition inner2 : rty := TRec [(3, (0, TBase)); (4, (0, TBase))].
Definition outer2 : rty := TRec [(1, (0, TBase)); (2, (0, inner2))].
Definition call_args : list arg :=
  [mkArg [] 10 [] 0 outer2; mkArg [] 11 [] 0 TBase; mkArg [] 12 [] 0 outer2].
Definition call_inputs : list fvar := [([20], (0, outer2)); ([21], (0, TBase)); ([22], (0, outer2))].
Example C113_arguments_case :
  exists args',
    unpack_args [mkArg [] 12 [] 0 outer2; mkArg [] 10 [] 0 outer2; mkArg [] 10 [2] 0 inner2; mkArg [] 12 [2] 0 inner2] call_args
      = Some args' /\
    no_record_args args' /\ fits call_args call_inputs /\
    no_record_vars (expand_vars [[20]; [20; 2]; [22]; [22; 2]] call_inputs) /\
    map (fun a => (a_val a, a_comps a)) args' =
      [(10, [1]); (10, [2; 3]); (10, [2; 4]); (11, []); (12, [1]); (12, [2; 3]); (12, [2; 4])].
Proof.
  eexists. split; [vm_compute; reflexivity|]. split; [|split; [|split; [|vm_compute; reflexivity]]].
  - intros a H. cbn in H. repeat (destruct H as [<-|H]; [reflexivity|]). destruct H.
  - repeat constructor.
  - intros p r t H. vm_compute in H. repeat (destruct H as [H|H]; [congruence|]). destruct H.
Qed.

(** If the arguments had the ranks of the parameters, so have the new ones. *)
Theorem C113_ranks_partial : forall order ps args inputs args',
  fits args inputs -> same_ranks args inputs -> unpack_args order args = Some args' ->
  no_record_args args' -> no_record_vars (expand_vars ps inputs) ->
  same_ranks args' (expand_vars ps inputs).
Proof. exact args_ranks. Qed.
Print Assumptions C113_ranks_partial.

Example C113_ranks_case :
  let t := TRec [(1, (2, TBase)); (2, (0, TBase))] in
  fits [mkArg [] 10 [] 0 t] [([20], (0, t))] /\ same_ranks [mkArg [] 10 [] 0 t] [([20], (0, t))] /\
  option_map (map a_rank) (unpack_args [mkArg [] 10 [] 0 t] [mkArg [] 10 [] 0 t]) = Some [2; 0].
Proof. repeat split; repeat constructor. Qed.

(** An argument that is an array of records is not unpacked: the cast fails. *)
Theorem C113_array_argument_refuted : forall a args,
  In a args -> 0 < a_rank a -> unpack_arg a args = None.
Proof.
  intros a args H R. induction args as [|x args IH]; [destruct H|]. cbn [unpack_arg].
  destruct H as [->|H].
  - destruct (unpack_arg a args); [|reflexivity].
    assert (E : same_value a a = true).
    { unfold same_value. rewrite Nat.eqb_refl. cbn [andb].
      induction (a_comps a) as [|y cs IHc]; cbn [path_eqb]; [reflexivity|]. now rewrite Nat.eqb_refl, IHc. }
    rewrite E. destruct (a_rank a); [lia | reflexivity].
  - rewrite (IH H). reflexivity.
Qed.
Print Assumptions C113_array_argument_refuted.

(** When the records among the results of a call and among the outputs of the function
    have been replaced, each use of a component of a result is a use of the result at
    the place of that component's output.
    Missing: results that are not records after ones that are, and components that are
    arrays, below. *)
Theorem C113_results_partial : forall n ps outputs u p xs' u',
  tidy outputs -> is_of outputs u p -> unpack_results n outputs u = Some (xs', u') ->
  no_record_vars xs' -> no_record_vars (expand_vars ps outputs) ->
  is_of (expand_vars ps outputs) u' p.
Proof.
  intros n ps outputs u p xs' u' T I E N1 N2.
  destruct (results_kept _ _ _ _ _ _ T I E) as [(x & K & ->) F].
  rewrite (flats_done _ N1), <- (flats_expand_all ps), (flats_done _ N2) in F.
  pose proof (map_nth_error fst _ _ K) as M. rewrite F in M.
  destruct (nth_error (expand_vars ps outputs) (fst u')) as [y|] eqn:Y.
  - exists y. split; [exact Y|]. pose proof (map_nth_error fst _ _ Y) as M'. rewrite M in M'.
    injection M' as ->. reflexivity.
  - exfalso. apply nth_error_None in Y. assert (fst u' < length (map fst (expand_vars ps outputs))).
    { apply nth_error_Some. rewrite M. discriminate. }
    rewrite map_length in H. unfold fvar in *; lia.
Qed.
Print Assumptions C113_results_partial.

(** (z, r) := f(): the use of r.2.4 is of the fourth result. *)
Example C113_results_case :
  let outputs := [([30], (0, TBase)); ([31], (0, outer2))] in
  tidy outputs /\ is_of outputs (1, [2; 4]) [31; 2; 4] /\
  option_map snd (unpack_results 5 outputs (1, [2; 4])) = Some (3, []) /\
  nth_error (expand_vars [[31]; [31; 2]] outputs) 3 = Some ([31; 2; 4], (0, TBase)).
Proof.
  cbv zeta. split; [|split; [|split; vm_compute; reflexivity]].
  - constructor.
    + exists [([30], (0, TBase))], [([31], (0, outer2))]. split; [reflexivity|].
      split; constructor; try constructor; cbn; discriminate.
    + intros xs' E _. vm_compute in E. injection E as <-. constructor.
      * exists [([30], (0, TBase)); ([31; 1], (0, TBase))], [([31; 2], (0, inner2))]. split; [reflexivity|].
        split; repeat (constructor; [cbn; try reflexivity; discriminate|]); constructor.
      * intros xs' E _. vm_compute in E. injection E as <-. constructor.
        -- eexists _, []. rewrite app_nil_r. split; [reflexivity|]. split; [|constructor].
           repeat (constructor; [reflexivity|]). constructor.
        -- intros xs' _ X. vm_compute in X. discriminate.
  - exists ([31], (0, outer2)). split; reflexivity.
Qed.

(** A result that is not a record and comes after one with components is taken from a
    wrong place: (r, z) := f() gives z a component of r. *)
Theorem C113_results_refuted : forall outputs xs' j p r i q r' c fs,
  new_results outputs = Some xs' -> nth_error outputs j = Some (p, (r, TBase)) -> i < j ->
  nth_error outputs i = Some (q, (r', TRec (c :: fs))) ->
  exists k k', nth_error xs' k = Some (p, (r, TBase)) /\ new_use outputs (j, []) = Some (k', []) /\ k' < k.
Proof. intros; eapply shifted; eauto. Qed.
Print Assumptions C113_results_refuted.
Example C113_results_refuted_case :
  let outputs := [([31], (0, inner2)); ([30], (0, TBase))] in
  unpack_results 2 outputs (1, []) =
    Some ([([31; 3], (0, TBase)); ([31; 4], (0, TBase)); ([30], (0, TBase))], (0, [])).
Proof. vm_compute; reflexivity. Qed.

(** The same inside one record: with a record before a scalar, r.z becomes r.b.x. *)
Example C113_inside_refuted :
  let outputs := [([31], (0, TRec [(2, (0, inner2)); (1, (0, TBase))]))] in
  exists xs', unpack_results 3 outputs (0, [1]) = Some (xs', (0, [])) /\
    nth_error xs' 0 = Some ([31; 2; 3], (0, TBase)).
Proof. eexists. split; vm_compute; reflexivity. Qed.

(** Results with a component that is an array are not unpacked: the type that is made
    is not valid. *)
Theorem C113_array_component_refuted : forall outputs p r fs f rf t,
  In (p, (r, TRec fs)) outputs -> In (f, (rf, t)) fs -> 0 < rf -> new_results outputs = None.
Proof.
  intros outputs p r fs f rf t H F L. induction outputs as [|x xs IH]; [destruct H|]. cbn [new_results].
  destruct H as [->|H].
  - unfold result_comps at 1. cbn [snd].
    destruct (forallb (fun c => fst (snd c) =? 0) fs) eqn:E; [|reflexivity].
    rewrite forallb_forall in E. apply E in F. cbn [fst snd] in F. apply Nat.eqb_eq in F. lia.
  - rewrite (IH H). destruct (result_comps x); reflexivity.
Qed.
Print Assumptions C113_array_component_refuted.
