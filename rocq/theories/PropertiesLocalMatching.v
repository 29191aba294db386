(** C28: the local matching options. The specification is in MCIMSpec.v. *)
From Coq Require Import ZArith List Bool Lia ZifyBool.
From Verif Require Import RangeModel MDRangeModel Result BoxSetModel AccessModel Spec AccessSpec
  BoxSetProofs AccessProofs MCIMModel MCIMSpec MCIMProofs MCIMSetProofs LocalMatchingModel LocalMatchingProofs PropertiesMCIM.
Import ListNotations.
Open Scope Z_scope.
Local Notation rg := mkRange.

(** ** C28. Local matching decompositions are valid and complete.

    The options are found without a violated assertion; each has at most one
    entry per equation and per variable and only entries of the matrix; every
    entry of the matrix is in one of them. Missing: functions that use a
    dimension in two results, and functions with ranges
    ([C28_ranges_refuted]). *)
Theorem C28_options_partial : forall m n k M, mlir_ok m -> matrix m n k M ->
  (forall g, In g (mgroups M) -> one_use (gfun g)) ->
  exists L, lm_solve m M = Ok L /\
    (forall T, In T L -> matrix m n k T /\ meqs T = meqs M /\ mvars T = mvars M /\
       (forall e v w, entry T e v -> entry T e w -> v = w) /\
       (forall e e' v, entry T e v -> entry T e' v -> e = e') /\
       (forall e v, entry T e v -> entry M e v)) /\
    (forall e v, entry M e v -> exists T, In T L /\ entry T e v).
Proof.
  intros m n k M Mok X O. apply (matrix_mx m Mok) in X as (X & A).
  destruct (solve_spec m Mok n k M X O) as (L & EL & S1 & S2). exists L. split; [assumption|]. split.
  - intros T HT. destruct (S1 T HT) as (XT & Q & W & F & (U1 & U2) & St).
    assert (Y : forall e v, entry T e v -> length e = n /\ cell T e v /\ stored T e v).
    { intros e v H. apply (entry_stored n k T e v XT) in H as (C & H). split; [|auto]. apply (cell_length n k T e v XT C). }
    split; [|split; [assumption|split; [assumption|split; [|split]]]].
    + apply (matrix_mx m Mok). split; [assumption|]. intros h Hh. destruct (F h Hh) as (g & Hg & ->). auto.
    + intros e v w H1 H2. apply Y in H1 as (L1 & _ & H1), H2 as (L2 & _ & H2). apply (U1 e v w); auto.
    + intros e e' v H1 H2. apply Y in H1 as (L1 & _ & H1), H2 as (L2 & _ & H2). apply (U2 e e' v); auto.
    + intros e v H. apply Y in H as (L1 & C & H). apply (entry_stored n k M e v X). unfold cell in *. rewrite Q, W in C. auto.
  - intros e v H. apply (entry_stored n k M e v X) in H as (C & H). destruct (cell_length n k M e v X C) as (Le & _).
    destruct (S2 e v Le H) as (T & HT & HS). exists T. split; [assumption|]. destruct (S1 T HT) as (XT & Q & W & _).
    apply (entry_stored n k T e v XT). unfold cell in *. rewrite Q, W. auto.
Qed.
Print Assumptions C28_options_partial.

(** A matrix with a rotation on two boxes of equations, and its two options. *)
Example C28_example : exists M L, matrix mlir0 1 1 M /\ (forall g, In g (mgroups M) -> one_use (gfun g)) /\
  lm_solve mlir0 M = Ok L /\ length L = 1%nat /\ mc_get M [2] [2] = Ok true.
Proof.
  exists (mkMcim [[rg 0 6]] [[rg 0 6]] [mkGroup KGeneric ident1 [[rg 0 3]]] []). eexists. split; [apply ident1_matrix; lia|].
  split; [intros g [<-|[]]; repeat constructor; intros []|]. split; [vm_compute; reflexivity|]. split; vm_compute; reflexivity.
Qed.
(** Rotations with an unused dimension, a constant function and a single entry:
    the options have one equation of the unused dimension each. *)
Example C28_example_2 : exists M L,
  fold_res (run_op mlir0) [OSet [1; 1] [3]; OApply [[rg 0 2; rg 0 3]] (AFRoto 2 [ADim 0]); OApply [[rg 1 2; rg 0 2]] (AFAffineConstant 2 [AConst 4])]
    (mc_new [[rg 0 2; rg 0 3]] [[rg 0 5]]) = Ok M /\ lm_solve mlir0 M = Ok L /\
  map (fun T => filter (fun q => match mc_get T (fst q) (snd q) with Ok b => b | _ => false end) (mc_indices T)) L =
    [[([0; 0], [0]); ([1; 0], [1])]; [([0; 1], [0]); ([1; 1], [1])]; [([0; 2], [0]); ([1; 2], [1])];
     [([1; 0], [4])]; [([1; 1], [4])]; [([1; 1], [3])]].
Proof. do 2 eexists. split; [vm_compute; reflexivity|]. split; vm_compute; reflexivity. Qed.

(** The function (d0) -> (0:1) with two elements for each equation: no option at
    all is found, and the assertion that all the entries are covered fails. *)
Theorem C28_ranges_refuted : exists f M, af_build mlir0 1 [DRange (rg 0 2)] = Ok f /\
  run_op mlir0 (mc_new [[rg 0 2]] [[rg 0 3]]) (OApply [[rg 0 2]] f) = Ok M /\
  mc_get M [0] [1] = Ok true /\ mc_splitGroups mlir0 M = Ok [] /\ lm_solve mlir0 M = Bad.
Proof. do 2 eexists. split; [vm_compute; reflexivity|]. split; [vm_compute; reflexivity|]. split; [|split]; vm_compute; reflexivity. Qed.
Print Assumptions C28_ranges_refuted.

(** Two access functions: the iteration over the options announced (one for each
    function) does not end, because the second function is skipped. *)
Theorem C28_functions_refuted : forall fuel,
  map_res (amount [[rg 0 2]]) [ident1; shift1] = Ok [1%nat; 1%nat] /\
  vaf_solutions mlir0 (S fuel) [ident1; shift1] [[rg 0 2]] [[rg 0 3]] = NoFuel /\
  vaf_solutions mlir0 (S fuel) [shift1; ident1] [[rg 0 2]] [[rg 0 3]] = NoFuel.
Proof.
  intros fuel. split; [reflexivity|].
  assert (D : forall fuel fs T g, length fs = 2%nat -> g = None \/ g = Some [] ->
    vaf_index mlir0 fuel fs [[rg 0 2]] [[rg 0 3]] (mkVaf [T] 2 g) 1 = NoFuel).
  { clear. induction fuel as [|fuel IH]; intros fs T g L H; [reflexivity|]. cbn [vaf_index vmatrices nth_error].
    assert (F : vaf_fetch mlir0 fs [[rg 0 2]] [[rg 0 3]] (mkVaf [T] 2 g) = Ok (mkVaf [T] 2 None)).
    { destruct fs as [|f [|f' [|? ?]]]; try discriminate. destruct H as [->| ->]; reflexivity. }
    rewrite F. cbn [bind]. apply IH; auto. }
  assert (E : forall f f' T, gen_of mlir0 [[rg 0 2]] [[rg 0 3]] f = Ok [T] ->
    map_res (amount [[rg 0 2]]) [f; f'] = Ok [1%nat; 1%nat] ->
    vaf_solutions mlir0 (S fuel) [f; f'] [[rg 0 2]] [[rg 0 3]] = NoFuel).
  { intros f f' T G A. unfold vaf_solutions. rewrite A. cbn [bind list_sum fold_right Nat.add seq vaf_iterate].
    assert (I : vaf_index mlir0 (S fuel) [f; f'] [[rg 0 2]] [[rg 0 3]] (mkVaf [] 0 None) 0 = Ok (mkVaf [T] 2 (Some []), T)).
    { assert (F : vaf_fetch mlir0 [f; f'] [[rg 0 2]] [[rg 0 3]] (mkVaf [] 0 None) = Ok (mkVaf [T] 2 (Some []))).
      { unfold vaf_fetch. cbn [vgen vcurrent nth_error vmatrices]. rewrite G. reflexivity. }
      cbn [vaf_index vmatrices nth_error]. rewrite F. cbn [bind]. destruct fuel; reflexivity. }
    rewrite I. cbn [bind fst]. rewrite D; auto. }
  split; (eapply E; [vm_compute; reflexivity|reflexivity]).
Qed.
Print Assumptions C28_functions_refuted.
