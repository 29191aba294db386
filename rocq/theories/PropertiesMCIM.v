(** Properties C25 to C27, C54 and C55: incidence matrices.

    The theorems hold for every simplifier [m] of affine expressions with the
    properties of [mlir_ok] and for matrices ([matrix]) of any rank with any
    number of groups, whose access functions are affine without divisions. *)
From Coq Require Import ZArith List Bool Lia.
From Verif Require Import RangeModel MDRangeModel Result BoxSetModel AccessModel Spec AccessSpec
  RangeProofs MDRangeProofs BoxListProofs BoxSetProofs AccessProofs AccessImageProofs
  AccessInverseProofs AccessPreimageProofs AccessCombineProofs ListTac
  MCIMModel MCIMSpec MCIMProofs MCIMSetProofs MCIMOpsProofs MCIMSpaceProofs.
Import ListNotations.
Open Scope Z_scope.

Local Notation rg := mkRange.
Lemma affine_of_map : forall n es f, af_build_map mlir0 n es = Ok f -> Forall (dims_below n) es ->
  Forall no_div es -> es <> [] -> affine_access mlir0 n (length es) f.
Proof. intros. now apply affine_from_map. Qed.

(** ** C25. Matrices store what is set.

    Starting from the empty matrix, after any history of permitted operations
    get reports exactly the entries that the history leaves set. Permitted (see
    [permitted]): affine functions, applied to equations that are one box or
    through functions that use all the dimensions; setting a pair that all the
    rotation-translations applied before map to each other; clearing a pair
    that all the functions applied before map to each other. Missing: the other
    operations ([C25_set_refuted], [C25_unset_refuted], [C25_unset_drop_refuted],
    [C25_apply_refuted], [C25_ranges_refuted]). *)
Theorem C25_history_partial : forall m n k eqs vars l, mlir_ok m -> (1 <= n)%nat -> (1 <= k)%nat ->
  bs_of n eqs -> eqs <> [] -> bs_of k vars -> vars <> [] -> all_permitted m n k eqs vars [] l ->
  exists M, fold_res (run_op m) l (mc_new eqs vars) = Ok M /\ meqs M = eqs /\ mvars M = vars /\
    forall e v, in_boxes e eqs -> in_boxes v vars ->
      exists b, mc_get M e v = Ok b /\ (b = true <-> effects vars l (fun _ _ => False) e v).
Proof.
  intros m n k eqs vars l Mok Hn Hk E Ne V Nv Pm. pose proof (new_mx n k eqs vars Hn Hk E Ne V Nv) as X.
  destruct (history_spec m Mok n k l (mc_new eqs vars) [] X) as (M & EM & XM & Q & W & S); [cbn; contradiction|assumption|].
  cbn in Q, W. exists M. split; [assumption|]. split; [assumption|]. split; [assumption|]. intros e v He Hv.
  destruct (get_spec n k M e v XM) as (b & Eb & _); [split; [now rewrite Q|now rewrite W]|].
  exists b. split; [assumption|]. specialize (S e v). cbn [mc_new mvars] in S. unfold entry at 1 in S. rewrite Eb in S.
  rewrite (effects_ext vars l (entry (mc_new eqs vars)) (fun _ _ => False)) in S.
  - rewrite <- S. split; [now intros ->|]. now injection 1.
  - intros e' v'. split; [|contradiction]. intros H. apply (entry_stored n k _ e' v' X) in H as (_ & [(x & [] & _)|(g & [] & _)]).
Qed.
Print Assumptions C25_history_partial.

(** A history with a rotation-translation, a constant function, single entries
    and a clearing: (d0) -> (d0 + 1) on [0,3); (d0) -> (2) on [1,3); set (0,1)
    and (1,2); and clear (0,4) in a matrix of single entries. *)
Definition shift1 : afun := AFRoto 1 [AAdd (ADim 0) (AConst 1)].
Definition to2 : afun := AFAffineConstant 1 [AConst 2].
Definition ident1 : afun := AFRoto 1 [ADim 0].
Example shift1_affine : affine_access mlir0 1 1 shift1.
Proof. apply (affine_of_map 1 [AAdd (ADim 0) (AConst 1)]); [reflexivity|repeat constructor|repeat constructor|discriminate]. Qed.
Example to2_affine : affine_access mlir0 1 1 to2.
Proof. apply (affine_of_map 1 [AConst 2]); [reflexivity|repeat constructor|repeat constructor|discriminate]. Qed.
Example ident1_affine : affine_access mlir0 1 1 ident1.
Proof. apply (affine_of_map 1 [ADim 0]); [reflexivity|repeat constructor|repeat constructor|discriminate]. Qed.

Example C25_history_example :
  all_permitted mlir0 1 1 [[rg 0 3]] [[rg 0 5]] []
    [OSet [0] [4]; OUnset [0] [4]; OApply [[rg 0 3]] shift1; OApply [[rg 1 3]] to2; OSet [0] [1]; OSet [1] [2]] /\
  exists M, fold_res (run_op mlir0)
    [OSet [0] [4]; OUnset [0] [4]; OApply [[rg 0 3]] shift1; OApply [[rg 1 3]] to2; OSet [0] [1]; OSet [1] [2]]
    (mc_new [[rg 0 3]] [[rg 0 5]]) = Ok M /\
    filter (fun q => match mc_get M (fst q) (snd q) with Ok b => b | _ => false end) (mc_indices M) =
      [([0], [1]); ([1], [2]); ([2], [2]); ([2], [3])].
Proof.
  split.
  - assert (I : forall a b c : Z, a <= b -> b < c -> in_boxes [b] [[rg a c]]).
    { intros a b c H1 H2. eexists. split; [now left|]. repeat constructor; cbn; lia. }
    cbn [all_permitted permitted op_functions app].
    split; [split; [apply I; lia|split; [apply I; lia|contradiction]]|].
    split; [split; [apply I; lia|split; [apply I; lia|contradiction]]|].
    split; [split; [exact shift1_affine|split; [repeat constructor; discriminate|split; [discriminate|split; [left; eauto|auto]]]]|].
    split; [split; [exact to2_affine|split; [repeat constructor; discriminate|split; [discriminate|split; [exact Logic.I|]]]]|].
    { intros e (b & [<-|[]] & H). inversion H as [|v r p' b' Hv Hp']; subst. inversion Hp'; subst. unfold in_range in Hv. cbn in Hv.
      apply I; lia. }
    split; [split; [apply I; lia|split; [apply I; lia|]]|split; [split; [apply I; lia|split; [apply I; lia|]]|exact Logic.I]].
    + intros f [<-|[<-|[]]]; cbn; [|exact Logic.I]. apply singleton_maps. reflexivity.
    + intros f [<-|[<-|[]]]; cbn; [|exact Logic.I]. apply singleton_maps. reflexivity.
  - eexists. split; vm_compute; reflexivity.
Qed.

(** Setting (0,2) in a matrix with the function (d0) -> (d0) sets (2,2) and not
    (0,2). *)
Theorem C25_set_refuted : exists M M', matrix mlir0 1 1 M /\
  fold_res (run_op mlir0) [OApply [[rg 0 2]] ident1] (mc_new [[rg 0 3]] [[rg 0 3]]) = Ok M /\
  run_op mlir0 M (OSet [0] [2]) = Ok M' /\
  mc_get M' [0] [2] = Ok false /\ mc_get M [2] [2] = Ok false /\ mc_get M' [2] [2] = Ok true.
Proof.
  do 2 eexists. split; [|split; [vm_compute; reflexivity|split; [vm_compute; reflexivity|split; [vm_compute; reflexivity|split; vm_compute; reflexivity]]]].
  constructor; cbn.
  - lia.
  - lia.
  - split; [repeat constructor; discriminate|discriminate].
  - split; [repeat constructor; discriminate|discriminate].
  - intros g [<-|[]]. cbn. split; [exact ident1_affine|]. split; [now left|]. split; [repeat constructor; discriminate|].
    split; [discriminate|]. intros e (b & [<-|[]] & H). inversion H as [|x r p' b' Hv Hp']; subst. inversion Hp'; subst.
    unfold in_range in Hv. cbn in Hv. split.
    + eexists. split; [now left|]. repeat constructor; cbn; lia.
    + intros v Hm. assert (maps_to (AFRoto 1 [ADim 0]) [x] [x]) by (apply singleton_maps; reflexivity).
      rewrite (maps_to_inj _ _ _ _ Hm H0). eexists. split; [now left|]. repeat constructor; cbn; lia.
  - split; [constructor|]. intros e v _ (b & [] & _).
Qed.
Print Assumptions C25_set_refuted.

(** Clearing (0,1), which is not set, clears (1,1). *)
Theorem C25_unset_refuted : exists M M',
  fold_res (run_op mlir0) [OApply [[rg 0 3]] ident1] (mc_new [[rg 0 3]] [[rg 0 3]]) = Ok M /\
  run_op mlir0 M (OUnset [0] [1]) = Ok M' /\
  mc_get M [0] [1] = Ok false /\ mc_get M [1] [1] = Ok true /\ mc_get M' [1] [1] = Ok false.
Proof. do 2 eexists. split; [vm_compute; reflexivity|split; [vm_compute; reflexivity|split; [|split]; vm_compute; reflexivity]]. Qed.
Print Assumptions C25_unset_refuted.

(** Clearing (0,0) loses the entries of the function (d0) -> (2). *)
Theorem C25_unset_drop_refuted : exists M M',
  fold_res (run_op mlir0) [OApply [[rg 0 3]] ident1; OApply [[rg 0 2]] to2] (mc_new [[rg 0 3]] [[rg 0 3]]) = Ok M /\
  run_op mlir0 M (OUnset [0] [0]) = Ok M' /\
  mc_get M [1] [2] = Ok true /\ mc_get M' [1] [2] = Ok false.
Proof. do 2 eexists. split; [vm_compute; reflexivity|split; [vm_compute; reflexivity|split; vm_compute; reflexivity]]. Qed.
Print Assumptions C25_unset_drop_refuted.

(** Applying (d0, d1) -> (d0) to the equations (0,0) and (5,7) also sets the
    entry of the equation (0,7). *)
Theorem C25_apply_refuted : exists M, affine_access mlir0 2 1 (AFRoto 2 [ADim 0]) /\
  run_op mlir0 (mc_new [[rg 0 6; rg 0 8]] [[rg 0 6]])
    (OApply [[rg 0 1; rg 0 1]; [rg 5 6; rg 7 8]] (AFRoto 2 [ADim 0])) = Ok M /\
  mc_get M [0; 7] [0] = Ok true.
Proof.
  eexists. split; [|split; vm_compute; reflexivity].
  apply (affine_of_map 2 [ADim 0]); [reflexivity|repeat constructor|repeat constructor|discriminate].
Qed.
Print Assumptions C25_apply_refuted.

(** Applying (d0) -> (d0, 0:3) in a matrix without the variables (i,3) sets
    nothing, although the equation 0 accesses the variable (0,0) of the matrix. *)
Theorem C25_ranges_refuted : exists f M, af_build mlir0 1 [DDim 0; DRange (rg 0 4)] = Ok f /\
  accesses f [0] [0; 0] /\
  run_op mlir0 (mc_new [[rg 0 3]] [[rg 0 3; rg 0 3]]) (OApply [[rg 0 3]] f) = Ok M /\
  mc_get M [0] [0; 0] = Ok false.
Proof.
  do 2 eexists. split; [vm_compute; reflexivity|]. split; [|split; vm_compute; reflexivity].
  eexists. split; [vm_compute; reflexivity|]. eexists. split; [now left|]. repeat constructor; cbn; lia.
Qed.
Print Assumptions C25_ranges_refuted.

(** ** C26. Sum and difference are entrywise.

    The sum, when the groups of the second matrix hold one box of equations or
    functions that use all the dimensions, and its single entries agree with
    the rotation-translations of both. Missing: [C26_plus_refuted]. *)
Theorem C26_plus_partial : forall m n k A B, mlir_ok m -> matrix m n k A -> matrix m n k B -> same_spaces A B ->
  (forall g, In g (mgroups B) -> regular (gfun g) (gkeys g)) ->
  (forall g e v, In g (mgroups A ++ mgroups B) -> length e = n -> in_boxes (e ++ v) (mpoints B) -> agrees (gfun g) e v) ->
  exists R, mc_plus m A B = Ok R /\ meqs R = meqs A /\ mvars R = mvars A /\
    forall e v, entry R e v <-> entry A e v \/ entry B e v.
Proof.
  intros m n k A B Mok XA XB (E & V) Reg Ag. apply (matrix_mx m Mok) in XA as (XA & _), XB as (XB & _).
  destruct (plus_spec m Mok n k A B XA XB E V Reg Ag) as (R & HR & _ & Q & W & S). exists R. auto.
Qed.
Print Assumptions C26_plus_partial.

(** The sum of a matrix with the function (d0) -> (d0) and of one with the
    single entry (0,2) violates the assertion at the end of the sum. *)
Theorem C26_plus_refuted : exists A B,
  run_op mlir0 (mc_new [[rg 0 3]] [[rg 0 3]]) (OApply [[rg 0 2]] ident1) = Ok A /\
  run_op mlir0 (mc_new [[rg 0 3]] [[rg 0 3]]) (OSet [0] [2]) = Ok B /\
  mc_plus mlir0 A B = Bad.
Proof. do 2 eexists. split; [vm_compute; reflexivity|split; vm_compute; reflexivity]. Qed.
Print Assumptions C26_plus_refuted.

(** The difference, when the second matrix has no single entry, those of the
    first are not entries of the second, and the groups are pairwise
    [compatible]. Missing: [C26_minus_refuted], [C26_minus_points_refuted]. *)
Theorem C26_minus_partial : forall m n k A B, mlir_ok m -> matrix m n k A -> matrix m n k B -> same_spaces A B ->
  mpoints B = [] -> (forall g, In g (mgroups A) -> one_use (gfun g)) ->
  (forall g h, In g (mgroups A) -> In h (mgroups B) -> compatible g h) ->
  (forall e v, length e = n -> in_boxes (e ++ v) (mpoints A) -> ~ entry B e v) ->
  exists R, mc_minus m A B = Ok R /\ meqs R = meqs A /\ mvars R = mvars A /\
    forall e v, entry R e v <-> entry A e v /\ ~ entry B e v.
Proof.
  intros m n k A B Mok XA XB (E & V) NP OU CO Ds. apply (matrix_mx m Mok) in XA as (XA & _), XB as (XB & _).
  destruct (minus_spec m Mok n k A B XA XB E V NP OU CO Ds) as (R & HR & _ & Q & W & S). exists R. auto.
Qed.
Print Assumptions C26_minus_partial.

(** (d0) -> (d0) minus (d0) -> (1 - d0) on the equations 0 and 1 has no entry
    left, although the two matrices have no entry in common. *)
Definition mirror1 : afun := AFGeneric 1 [DAdd (DMul (DDim 0) (DConst (-1))) (DConst 1)].
Theorem C26_minus_refuted : exists A B R, affine_access mlir0 1 1 mirror1 /\
  run_op mlir0 (mc_new [[rg 0 2]] [[rg 0 2]]) (OApply [[rg 0 2]] ident1) = Ok A /\
  run_op mlir0 (mc_new [[rg 0 2]] [[rg 0 2]]) (OApply [[rg 0 2]] mirror1) = Ok B /\
  mc_minus mlir0 A B = Ok R /\
  mc_get A [0] [0] = Ok true /\ mc_get B [0] [0] = Ok false /\ mc_get R [0] [0] = Ok false.
Proof.
  do 3 eexists. split; [|split; [vm_compute; reflexivity|split; [vm_compute; reflexivity|split; [vm_compute; reflexivity|split; [|split]; vm_compute; reflexivity]]]].
  apply (affine_of_map 1 [AAdd (AMul (ADim 0) (AConst (-1))) (AConst 1)]); [reflexivity|repeat constructor|repeat constructor|discriminate].
Qed.
Print Assumptions C26_minus_refuted.

(** A single entry of the first matrix that a function of the second one covers
    is not removed: the assertion at the end fails. *)
Theorem C26_minus_points_refuted : exists A B,
  run_op mlir0 (mc_new [[rg 0 3]] [[rg 0 3]]) (OSet [0] [0]) = Ok A /\
  run_op mlir0 (mc_new [[rg 0 3]] [[rg 0 3]]) (OApply [[rg 0 2]] ident1) = Ok B /\
  mc_minus mlir0 A B = Bad.
Proof. do 2 eexists. split; [vm_compute; reflexivity|split; vm_compute; reflexivity]. Qed.
Print Assumptions C26_minus_points_refuted.

Lemma bs1 : forall a b : Z, a < b -> bs_of 1 [[rg a b]].
Proof. intros a b H. constructor; [|constructor]. split; [|reflexivity]. split; [discriminate|]. constructor; [exact H|constructor]. Qed.

Lemma ident1_matrix : forall lo hi c, 0 <= lo -> lo < hi -> hi < c ->
  matrix mlir0 1 1 (mkMcim [[rg 0 c]] [[rg 0 c]] [mkGroup KGeneric ident1 [[rg lo hi]]] []).
Proof.
  intros lo hi c H0 H1 H2. constructor; cbn.
  - lia.
  - lia.
  - split; [apply bs1; lia|discriminate].
  - split; [apply bs1; lia|discriminate].
  - intros g [<-|[]]. cbn. split; [exact ident1_affine|]. split; [now left|].
    split; [apply bs1; lia|].
    split; [discriminate|]. intros e (b & [<-|[]] & H). inversion H as [|x r p' b' Hv Hp']; subst. inversion Hp'; subst.
    unfold in_range in Hv. cbn in Hv. split.
    + eexists. split; [now left|]. repeat constructor; cbn; lia.
    + intros v Hm. assert (HH : maps_to (AFRoto 1 [ADim 0]) [x] [x]) by (apply singleton_maps; reflexivity).
      rewrite (maps_to_inj _ _ _ _ Hm HH). eexists. split; [now left|]. repeat constructor; cbn; lia.
  - split; [constructor|]. intros e v _ (b & [] & _).
Qed.

(** Two matrices that the theorems on sums and differences apply to. *)
Example C26_example : exists A B R D,
  matrix mlir0 1 1 A /\ matrix mlir0 1 1 B /\ same_spaces A B /\
  (forall g, In g (mgroups B) -> regular (gfun g) (gkeys g)) /\
  (forall g h, In g (mgroups A) -> In h (mgroups B) -> compatible g h) /\
  mc_plus mlir0 A B = Ok R /\ mc_minus mlir0 A B = Ok D /\
  mc_get R [4] [4] = Ok true /\ mc_get D [1] [1] = Ok true /\ mc_get D [2] [2] = Ok false.
Proof.
  exists (mkMcim [[rg 0 6]] [[rg 0 6]] [mkGroup KGeneric ident1 [[rg 0 3]]] []),
         (mkMcim [[rg 0 6]] [[rg 0 6]] [mkGroup KGeneric ident1 [[rg 2 5]]] []).
  do 2 eexists. split; [apply ident1_matrix; lia|]. split; [apply ident1_matrix; lia|]. split; [split; reflexivity|].
  split; [intros g [<-|[]]; cbn; left; eauto|].
  split; [intros g h [<-|[]] [<-|[]]; left; reflexivity|].
  split; [vm_compute; reflexivity|]. split; [vm_compute; reflexivity|]. split; [|split]; vm_compute; reflexivity.
Qed.

(** ** C27. Filtering and flattening.

    Missing, for the filters: functions that use a dimension in two results, and
    for filterColumns the functions with unused dimensions on several boxes of
    equations. *)
Theorem C27_filterRows_partial : forall m n k M s, mlir_ok m -> matrix m n k M -> bs_of n s ->
  (forall g, In g (mgroups M) -> one_use (gfun g)) ->
  exists R, mc_filterRows M s = Ok R /\ meqs R = meqs M /\ mvars R = mvars M /\
    forall e v, entry R e v <-> entry M e v /\ in_boxes e s.
Proof.
  intros m n k M s Mok X S O. apply (matrix_mx m Mok) in X as (X & _).
  destruct (filterRows_spec n k M s X S O) as (R & HR & XR & Q & W & _ & St). exists R. split; [assumption|]. split; [assumption|]. split; [assumption|].
  intros e v. rewrite (entry_stored n k R e v XR), (entry_stored n k M e v X). assert (CE : cell R e v <-> cell M e v) by (unfold cell; now rewrite Q, W).
  rewrite CE. split.
  - intros (C & H). apply St in H; [tauto|]. now apply (cell_length n k M e v X).
  - intros ((C & H) & Hs). split; [assumption|]. apply St; [now apply (cell_length n k M e v X)|auto].
Qed.
Print Assumptions C27_filterRows_partial.

Theorem C27_filterColumns_partial : forall m n k M s, mlir_ok m -> matrix m n k M -> bs_of k s ->
  (forall g, In g (mgroups M) -> one_use (gfun g) /\ regular (gfun g) (gkeys g)) ->
  exists R, mc_filterColumns m M s = Ok R /\ meqs R = meqs M /\ mvars R = mvars M /\
    forall e v, entry R e v <-> entry M e v /\ in_boxes v s.
Proof.
  intros m n k M s Mok X S O. apply (matrix_mx m Mok) in X as (X & _).
  destruct (filterColumns_spec m Mok n k M s X S O) as (R & HR & XR & Q & W & _ & St). exists R. split; [assumption|]. split; [assumption|]. split; [assumption|].
  intros e v. rewrite (entry_stored n k R e v XR), (entry_stored n k M e v X). assert (CE : cell R e v <-> cell M e v) by (unfold cell; now rewrite Q, W).
  rewrite CE. split.
  - intros (C & H). apply St in H; [tauto|]. now apply (cell_length n k M e v X).
  - intros ((C & H) & Hs). split; [assumption|]. apply St; [now apply (cell_length n k M e v X)|auto].
Qed.
Print Assumptions C27_filterColumns_partial.

(** The equations with an entry: no restriction. *)
Theorem C27_flattenColumns : forall m n k M, mlir_ok m -> matrix m n k M ->
  forall e, in_boxes e (mc_flattenColumns M) <-> exists v, entry M e v.
Proof. intros m n k M Mok X. apply (matrix_mx m Mok) in X as (X & _). now apply (flattenColumns_spec n k). Qed.
Print Assumptions C27_flattenColumns.

(** The variables with an entry. Missing: functions that use a dimension in two
    results. *)
Theorem C27_flattenRows_partial : forall m n k M, mlir_ok m -> matrix m n k M ->
  (forall g, In g (mgroups M) -> one_use (gfun g)) ->
  exists r, mc_flattenRows M = Ok r /\ forall v, in_boxes v r <-> exists e, entry M e v.
Proof. intros m n k M Mok X O. apply (matrix_mx m Mok) in X as (X & _). now apply (flattenRows_spec n k). Qed.
Print Assumptions C27_flattenRows_partial.

Example C27_example : exists M R r, matrix mlir0 1 1 M /\
  (forall g, In g (mgroups M) -> one_use (gfun g) /\ regular (gfun g) (gkeys g)) /\
  mc_filterRows M [[rg 1 9]] = Ok R /\ mc_flattenRows R = Ok r /\ bs_points r = [[1]; [2]].
Proof.
  exists (mkMcim [[rg 0 6]] [[rg 0 6]] [mkGroup KGeneric ident1 [[rg 0 3]]] []). do 2 eexists. split; [apply ident1_matrix; lia|].
  split; [intros g [<-|[]]; split; [repeat constructor; intros []|cbn; left; eauto]|].
  split; [vm_compute; reflexivity|]. split; vm_compute; reflexivity.
Qed.

(** ** C54. Restricting a matrix to other spaces. *)
Theorem C54_equations : forall m n k M s, mlir_ok m -> matrix m n k M -> bs_of n s -> s <> [] ->
  exists R, mc_setEquationSpace M s = Ok R /\ matrix m n k R /\ meqs R = s /\ mvars R = mvars M /\
    forall e v, entry R e v <-> entry M e v /\ in_boxes e s.
Proof.
  intros m n k M s Mok X S N. apply (matrix_mx m Mok) in X as (X & A).
  destruct (setEquationSpace_spec n k M s X S N) as (R & HR & XR & Q & W & F & St). exists R. split; [assumption|]. split.
  { apply (matrix_mx m Mok). split; [assumption|]. intros g Hg. destruct (F g Hg) as (g0 & Hg0 & ->). auto. }
  split; [assumption|]. split; [assumption|].
  intros e v. rewrite (entry_stored n k R e v XR), (entry_stored n k M e v X). split.
  - intros (C & H). pose proof (cell_length n k R e v XR C) as (L & _). apply St in H as (H & Hs); [|assumption].
    split; [|assumption]. split; [|assumption]. now apply (stored_cell n k M e v X).
  - intros ((C & H) & Hs). split; [split; [now rewrite Q|rewrite W; apply C]|]. apply St; [now apply (cell_length n k M e v X)|auto].
Qed.
Print Assumptions C54_equations.

(** The variables, for matrices without single entries. Missing: single entries
    ([C54_variables_refuted]), unused dimensions on several boxes. *)
Theorem C54_variables_partial : forall m n k M s, mlir_ok m -> matrix m n k M -> bs_of k s -> s <> [] -> mpoints M = [] ->
  (forall g, In g (mgroups M) -> regular (gfun g) (gkeys g)) ->
  exists R, mc_setVariableSpace m M s = Ok R /\ matrix m n k R /\ meqs R = meqs M /\ mvars R = s /\
    forall e v, entry R e v <-> entry M e v /\ in_boxes v s.
Proof.
  intros m n k M s Mok X S N NP Reg. apply (matrix_mx m Mok) in X as (X & A).
  destruct (setVariableSpace_spec m Mok n k M s X S N NP Reg) as (R & HR & XR & Q & W & F & St). exists R. split; [assumption|]. split.
  { apply (matrix_mx m Mok). split; [assumption|]. intros g Hg. destruct (F g Hg) as (g0 & Hg0 & ->). auto. }
  split; [assumption|]. split; [assumption|].
  intros e v. rewrite (entry_stored n k R e v XR), (entry_stored n k M e v X). split.
  - intros (C & H). pose proof (cell_length n k R e v XR C) as (L & _). apply St in H as (H & Hs); [|assumption].
    split; [|assumption]. split; [|assumption]. now apply (stored_cell n k M e v X).
  - intros ((C & H) & Hs). split; [split; [rewrite Q; apply C|now rewrite W]|]. apply St; [now apply (cell_length n k M e v X)|auto].
Qed.
Print Assumptions C54_variables_partial.

(** The entry (0,5), set alone, is lost when the variables become [4,6). *)
Theorem C54_variables_refuted : exists M R,
  run_op mlir0 (mc_new [[rg 0 3]] [[rg 0 6]]) (OSet [0] [5]) = Ok M /\
  mc_setVariableSpace mlir0 M [[rg 4 6]] = Ok R /\
  mc_get M [0] [5] = Ok true /\ mc_get R [0] [5] = Ok false.
Proof. do 2 eexists. split; [vm_compute; reflexivity|split; [vm_compute; reflexivity|split; vm_compute; reflexivity]]. Qed.
Print Assumptions C54_variables_refuted.

(** Both spaces at once, for matrices without single entries whose functions
    use no dimension twice, when the new variables are not all among the old
    ones or contain all the variables with an entry. Missing:
    [C54_points_refuted], [C54_fewer_variables_refuted]. *)
Theorem C54_both_partial : forall m n k M es vs, mlir_ok m -> matrix m n k M ->
  bs_of n es -> es <> [] -> bs_of k vs -> vs <> [] -> mpoints M = [] ->
  (forall g, In g (mgroups M) -> one_use (gfun g) /\ regular (gfun g) (gkeys g)) ->
  ((exists v, in_boxes v vs /\ ~ in_boxes v (mvars M)) \/ forall e v, entry M e v -> in_boxes v vs) ->
  exists R, mc_withSpace m M es vs = Ok R /\
    (forall e, in_boxes e (meqs R) <-> in_boxes e es) /\ (forall v, in_boxes v (mvars R) <-> in_boxes v vs) /\
    forall e v, entry R e v <-> entry M e v /\ in_boxes e es /\ in_boxes v vs.
Proof.
  intros m n k M es vs Mok X E Ne V Nv NP O C. apply (matrix_mx m Mok) in X as (X & A).
  destruct (withSpace_spec m Mok n k M es vs X E Ne V Nv NP) as (R & HR & XR & Q & W & St).
  - intros g Hg. apply (O g Hg).
  - destruct C as [(v & Hv & N)|C]; [left|now right]. destruct (bs_contains (mvars M) vs) eqn:B; [|reflexivity].
    exfalso. apply N. now apply (proj1 (bs_contains_spec (mvars M) vs) B).
  - intros g Hg. apply (O g Hg).
  - exists R. auto.
Qed.
Print Assumptions C54_both_partial.

(** The single entry (0,1) is lost when the equation 2 is left out. *)
Theorem C54_points_refuted : exists M R,
  run_op mlir0 (mc_new [[rg 0 3]] [[rg 0 3]]) (OSet [0] [1]) = Ok M /\
  mc_withSpace mlir0 M [[rg 0 2]] [[rg 0 3]] = Ok R /\
  mc_get M [0] [1] = Ok true /\ mc_get R [0] [1] = Ok false.
Proof. do 2 eexists. split; [vm_compute; reflexivity|split; [vm_compute; reflexivity|split; vm_compute; reflexivity]]. Qed.
Print Assumptions C54_points_refuted.

(** (d0) -> (d0) without the variable 2: an assertion fails. *)
Theorem C54_fewer_variables_refuted : exists M,
  run_op mlir0 (mc_new [[rg 0 3]] [[rg 0 3]]) (OApply [[rg 0 3]] ident1) = Ok M /\
  mc_withSpace mlir0 M [[rg 0 3]] [[rg 0 2]] = Bad.
Proof. eexists. split; vm_compute; reflexivity. Qed.
Print Assumptions C54_fewer_variables_refuted.

Example C54_example : exists M R, matrix mlir0 1 1 M /\
  (forall g, In g (mgroups M) -> one_use (gfun g) /\ regular (gfun g) (gkeys g)) /\
  mc_withSpace mlir0 M [[rg 1 9]] [[rg 0 2]; [rg 7 9]] = Ok R /\
  mc_get R [1] [1] = Ok true /\ mc_get M [2] [2] = Ok true /\ map gkeys (mgroups R) = [[[rg 1 2]]].
Proof.
  exists (mkMcim [[rg 0 6]] [[rg 0 6]] [mkGroup KGeneric ident1 [[rg 0 3]]] []). eexists. split; [apply ident1_matrix; lia|].
  split; [intros g [<-|[]]; split; [repeat constructor; intros []|cbn; left; eauto]|].
  split; [vm_compute; reflexivity|]. split; [|split]; vm_compute; reflexivity.
Qed.

(** ** C55. Equality. *)
Theorem C55_equal : forall m n k A B, mlir_ok m -> matrix m n k A -> matrix m n k B ->
  exists b, mc_eq A B = Ok b /\ mc_ne A B = Ok (negb b) /\
    (b = true <-> same_spaces A B /\ forall e v, entry A e v <-> entry B e v).
Proof.
  intros m n k A B Mok XA XB. apply (matrix_mx m Mok) in XA as (XA & _), XB as (XB & _).
  destruct (eq_spec n k A B XA XB) as (b & E & Hb). exists b. split; [assumption|]. split; [rewrite ne_eq, E; reflexivity|].
  rewrite Hb. unfold same_spaces. tauto.
Qed.
Print Assumptions C55_equal.

(** Two different representations of the same matrix. *)
Example C55_example : exists A B, matrix mlir0 1 1 A /\
  fold_res (run_op mlir0) [OSet [0] [0]; OSet [1] [1]] (mc_new [[rg 0 6]] [[rg 0 6]]) = Ok B /\
  mgroups B = [] /\ mgroups A <> [] /\ mc_eq A B = Ok true.
Proof.
  exists (mkMcim [[rg 0 6]] [[rg 0 6]] [mkGroup KGeneric ident1 [[rg 0 2]]] []). eexists. split; [apply ident1_matrix; lia|].
  split; [vm_compute; reflexivity|]. split; [reflexivity|]. split; [discriminate|]. vm_compute. reflexivity.
Qed.
