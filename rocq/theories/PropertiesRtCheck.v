(** C115: the checks that stop a simulation before an operation that is not
    defined. *)

From Coq Require Import List ZArith Bool Lia.
From Coq Require Import Floats.SpecFloat.
Import ListNotations.
From Verif Require Import SliceModel SliceSpec RtCheckModel RtCheckSpec RtCheckProofs.
Local Open Scope Z_scope.

(** Reading or writing one element: the checks hold exactly when the element
    exists. *)
Theorem C115_element : forall dims idx, length idx = length dims ->
  exists cs, source_index_checks dims idx = Some cs
    /\ (all_hold cs = true <-> element dims idx).
Proof. exact index_exact. Qed.
Print Assumptions C115_element.

Example C115_element_good : source_index_checks [2; 3] [2; 3] = Some [true; true].
Proof. reflexivity. Qed.
Example C115_element_bad : source_index_checks [2; 3] [2; 4] = Some [true; false].
Proof. reflexivity. Qed.

(** With fewer indices than dimensions, as when a call for each element of an
    array returns an array (FunctionScalarization.cpp:372), the compiler reads
    past the last index. *)
Theorem C115_short_refuted : forall dims idx, (length idx < length dims)%nat ->
  source_index_checks dims idx = None.
Proof. exact index_short. Qed.
Print Assumptions C115_short_refuted.

Example C115_short_case : source_index_checks [2; 3] [1] = None.
Proof. reflexivity. Qed.

(** Reading a slice given by indices and colons: the checks hold exactly when
    every element of the slice exists.  Missing: ranges, see
    [C115_slice_no_alarm_partial] and [C115_range_refuted]. *)
Theorem C115_slice_partial : forall dims ss r,
  slice_dims dims ss r -> no_ranges ss -> some_element r ->
  exists cs, source_view_checks dims ss = Some cs
    /\ (all_hold cs = true <-> slice_inside dims ss r).
Proof. exact view_exact. Qed.
Print Assumptions C115_slice_partial.

Example C115_slice_case :
  slice_dims [2; 3; 4] [At 2; All] [3; 4] /\ no_ranges [At 2; All] /\ some_element [3; 4]
  /\ source_view_checks [2; 3; 4] [At 2; All] = Some [true; true]
  /\ source_view_checks [2; 3; 4] [At 3; All] = Some [false; true].
Proof.
  split; [repeat constructor |]. split; [intros s [<- | [<- | []]]; eauto |].
  split; [repeat constructor; lia |]. split; reflexivity.
Qed.

(** With ranges the checks do not stop a slice all of whose elements exist.
    Missing: that they stop the others, which fails. *)
Theorem C115_slice_no_alarm_partial : forall dims ss r,
  slice_dims dims ss r -> some_element r -> slice_inside dims ss r ->
  exists cs, source_view_checks dims ss = Some cs /\ all_hold cs = true.
Proof. exact view_no_alarm. Qed.
Print Assumptions C115_slice_no_alarm_partial.

Example C115_no_alarm_case :
  slice_dims [5] [Rng 2 4 1] [3] /\ some_element [3] /\ slice_inside [5] [Rng 2 4 1] [3]
  /\ source_view_checks [5] [Rng 2 4 1] = Some [true].
Proof.
  destruct (view_anywhere 5 2 3 ltac:(lia)) as (A & B & C). cbn in A, B, C.
  split; [exact A |]. split; [repeat constructor; lia |].
  split; [apply C; lia | reflexivity].
Qed.

(** A range of [n <= d] elements passes wherever it begins, and its elements
    exist only when it begins between 1 and [d - n + 1]. *)
Theorem C115_range_refuted : forall d b n, 1 <= n <= d ->
  slice_dims [d] [Rng b (b + n - 1) 1] [n]
  /\ source_view_checks [d] [Rng b (b + n - 1) 1] = Some [true]
  /\ (slice_inside [d] [Rng b (b + n - 1) 1] [n] <-> 1 <= b <= d - n + 1).
Proof. exact view_anywhere. Qed.
Print Assumptions C115_range_refuted.

Example C115_range_case :
  source_view_checks [3] [Rng 5 6 1] = Some [true] /\ ~ slice_inside [3] [Rng 5 6 1] [2].
Proof.
  split; [reflexivity |]. destruct (view_anywhere 3 5 2 ltac:(lia)) as (_ & _ & C).
  cbn in C. intros H. apply C in H. lia.
Qed.

(** Assigning to a slice: the checks hold exactly when the value has the sizes
    of the slice.  Missing: that the elements of the slice exist. *)
Theorem C115_shape_partial : forall dims ss r sdims,
  slice_dims dims ss r -> no_empty ss -> length sdims = length r ->
  exists cs, source_insert_checks dims sdims ss = Some cs
    /\ (all_hold cs = true <-> sdims = r).
Proof. exact insert_exact. Qed.
Print Assumptions C115_shape_partial.

Example C115_shape_case :
  slice_dims [4; 5; 6] [Rng 2 3 1; At 1; All] [2; 6] /\ no_empty [Rng 2 3 1; At 1; All]
  /\ source_insert_checks [4; 5; 6] [2; 6] [Rng 2 3 1; At 1; All] = Some [true; true]
  /\ source_insert_checks [4; 5; 6] [3; 6] [Rng 2 3 1; At 1; All] = Some [false; true].
Proof.
  split; [apply sd_rng; [apply (unit_count 2 2); lia | repeat constructor] |].
  split; [| split; reflexivity].
  intros b e s [Q | [Q | [Q | []]]]; try discriminate. injection Q as <- <- <-. left. lia.
Qed.

(** Assigning to row [k] of a matrix passes for every [k]. *)
Theorem C115_row_refuted : forall d n k, 1 <= n ->
  slice_dims [d; n] [At k] [n]
  /\ source_insert_checks [d; n] [n] [At k] = Some [true]
  /\ (slice_inside [d; n] [At k] [n] <-> 1 <= k <= d).
Proof. exact insert_row_anywhere. Qed.
Print Assumptions C115_row_refuted.

Example C115_row_case :
  source_insert_checks [2; 3] [3] [At 7] = Some [true] /\ ~ slice_inside [2; 3] [At 7] [3].
Proof.
  split; [reflexivity |]. destruct (insert_row_anywhere 2 3 7 ltac:(lia)) as (_ & _ & C).
  intros H. apply C in H. lia.
Qed.

(** Divisions, inverse functions, logarithms and roots of doubles: the checks
    hold exactly when the operation is defined. *)
Theorem C115_math : forall m, math_doubles m ->
  (all_hold (math_checks m) = true <-> math_defined m).
Proof. exact math_exact. Qed.
Print Assumptions C115_math.

Example C115_math_cases :
  math_doubles (MAcos f1) /\ all_hold (math_checks (MAcos f1)) = true
  /\ all_hold (math_checks (MAcos (S754_finite false 4503599627370497 (-52)))) = false
  /\ all_hold (math_checks (MDiv f1 (S754_zero true))) = false
  /\ all_hold (math_checks (MDivEW [f1; f1] [f1; f0])) = false
  /\ all_hold (math_checks (MSqrt (S754_zero true))) = true
  /\ all_hold (math_checks (MLog f0)) = false
  /\ all_hold (math_checks (MMod f1 S754_nan)) = false.
Proof. repeat split; vm_compute; reflexivity. Qed.

(** [size(x, k)]: the check holds exactly when [x] has a dimension [k]. *)
Theorem C115_size : forall rank k,
  all_hold (dim_checks rank (k - 1)) = true <-> 1 <= k <= rank.
Proof.
  intros rank k. unfold all_hold, dim_checks. cbn [forallb].
  rewrite andb_true_r, andb_true_iff, Z.leb_le, Z.ltb_lt. lia.
Qed.
Print Assumptions C115_size.

Example C115_size_case : all_hold (dim_checks 2 (3 - 1)) = false.
Proof. reflexivity. Qed.
