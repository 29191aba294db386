(** C109: slices of arrays. *)

From Coq Require Import List ZArith Bool Lia.
Import ListNotations.
From Verif Require Import SliceModel SliceSpec SliceProofs.
Local Open Scope Z_scope.

(** Reading: for every array and all subscripts of the source the lowering
    accepts, element [j] of the slice is the element of the array that it is
    in Modelica.  Indices start from 1 in the source. *)
Theorem C109_read :
  forall V (t v : tensor V) ss ss' i j,
    lower_subs ss = Some ss' -> view (infer_bounds (t_dims t) ss') t = Some v ->
    slice_of 1 ss i j -> length i = length (t_dims t) ->
    t_at v (map (fun x => x - 1) j) = t_at t (map (fun x => x - 1) i).
Proof.
  intros V t v ss ss' i j El Ev H L. eapply view_reads; [exact Ev | |].
  - apply colon_elements. apply (one_based ss ss' i j H El).
  - rewrite map_length. exact L.
Qed.
Print Assumptions C109_read.

(** The sizes of a slice. Missing: empty ranges, for which RangeSizeOp is
    wrong, see C46_size_refuted. *)
Theorem C109_sizes_partial :
  forall V (t : tensor V) ss ss' r,
    lower_subs ss = Some ss' -> slice_dims (t_dims t) ss r -> no_empty ss ->
    exists v, view (infer_bounds (t_dims t) ss') t = Some v /\ t_dims v = r.
Proof.
  intros V t ss ss' r El Hd Hn.
  destruct (view_dims ss' (t_dims t) r (lower_dims ss ss' _ r El Hd)) as (ps & E & K).
  - intros b e s Hi. apply (lower_range ss ss' b e s El) in Hi. apply Hn in Hi. lia.
  - intros l. apply (lower_array ss ss' l El).
  - unfold view. rewrite E. eexists. split; [reflexivity | exact K].
Qed.
Print Assumptions C109_sizes_partial.

(** An element of a slice of a slice of ...: folding its views, with ranges of
    any step, leaves one access to the same element of the source. *)
Theorem C109_fold :
  forall V (t v : tensor V) chain i j x,
    views (map snd chain) t = Some v -> chain_of 0 (map snd chain) i j ->
    length i = length (t_dims t) ->
    Forall (fun c => snd c <> [] /\ plain (snd c)) chain ->
    extract (map At j) v = Some x ->
    fold_extract (rev chain) j = ([], i) /\ extract (map At i) t = Some x.
Proof.
  intros V t v chain i j x Ev Hc L HF Ex. split; [apply fold_ok; assumption |].
  destruct (views_read _ t v i j Ev Hc L) as (A & B).
  unfold extract in *. rewrite map_length in *. rewrite L, Nat.eqb_refl, indices_at.
  rewrite B, Nat.eqb_refl, indices_at in Ex. congruence.
Qed.
Print Assumptions C109_fold.

(** Merging views, in the canonicalizer. Right when no view but the last has
    a range. Missing: ranges, see [C109_merge_refuted]. *)
Theorem C109_merge_partial :
  forall V (t w : tensor V) inner last,
    Forall only_indices inner -> views (inner ++ [last]) t = Some w ->
    exists u, view (merge_views (inner ++ [last])) t = Some u /\ t_dims u = t_dims w /\
      forall j, t_at u j = t_at w j.
Proof. intros V t w inner last HF E. apply merge_ok; assumption. Qed.
Print Assumptions C109_merge_partial.

(** Finding: of a square matrix [x], the row [(x[1:n])[k]] becomes the column
    [x[1:n, k]], which has the same size. *)
Theorem C109_merge_refuted :
  forall V (t : tensor V) n k,
    t_dims t = [n; n] -> 0 <= k < n ->
    exists row column,
      views [[Rng 0 (n - 1) 1]; [At k]] t = Some row /\
      view (merge_views [[Rng 0 (n - 1) 1]; [At k]]) t = Some column /\
      t_dims row = [n] /\ t_dims column = [n] /\
      (forall j, t_at row [j] = t_at t [k; j]) /\
      (forall j, t_at column [j] = t_at t [j; k]).
Proof.
  intros V t n k Hd Hk. unfold merge_views, views, view. rewrite Hd.
  cbn [concat app view_parts map]. eexists _, _. split; [reflexivity |]. split; [reflexivity |].
  cbn. unfold range_size. rewrite Z.quot_1_r.
  split; [reflexivity |]. split; [f_equal; lia |]. split; intros j.
  - replace (0 + j * 1) with j by lia. replace (0 + k * 1) with k by lia.
    f_equal. f_equal; [lia |]. f_equal; lia.
  - f_equal. f_equal. lia.
Qed.
Print Assumptions C109_merge_refuted.

(** Finding: the canonicalizer turns every access to an element of a slice
    with a range into an access that is not valid. *)
Theorem C109_merge_extract_refuted :
  forall V (t : tensor V) chain idx ss b e s,
    In ss chain -> In (Rng b e s) ss -> extract (merge_extract chain (map At idx)) t = None.
Proof. intros. eapply merge_extract_fails; eassumption. Qed.
Print Assumptions C109_merge_extract_refuted.

(** Writing a slice: element [j] of the value goes to the element of the array
    that it is in the slice. Missing: ranges with a negative step. *)
Theorem C109_write_partial :
  forall dims ss value ps i j,
    insert_parts dims ss value = Some ps -> slice_of 0 ss i j -> length i = length dims ->
    (forall b e s, In (Rng b e s) ss -> 0 <= s) -> locate ps j = i.
Proof. intros. eapply insert_slice; eassumption. Qed.
Print Assumptions C109_write_partial.

(** Finding: with a negative step the first element goes to the end of the
    range and the others beyond it. *)
Theorem C109_write_refuted :
  forall d b e s m,
    s < 0 -> e < b ->
    exists ps, insert_parts [d] [Rng b e s] [m] = Some ps /\
      (forall n, slice_of 0 [Rng b e s] [b + n * s] [n]) /\
      (forall n, locate ps [n] = [e + n * s]) /\
      (forall n, 0 < n -> e + n * s < e) /\
      locate ps [0] <> [b + 0 * s].
Proof.
  intros d b e s m Hs He. cbn [insert_parts option_map].
  replace (0 <=? s) with false by (symmetry; apply Z.leb_gt; exact Hs).
  eexists. split; [reflexivity |]. split; [| split; [| split]].
  - intros n. apply (so_rng 0 b e s n [] [] []). constructor.
  - intros n. reflexivity.
  - intros n Hn. nia.
  - cbn. intros H. injection H. lia.
Qed.
Print Assumptions C109_write_refuted.

(** ** The hypotheses are met *)

Definition m34 : tensor Z :=
  mkT [3; 4] (fun i => match i with [a; b] => 10 * a + b | _ => -1 end).

(** x[3:-2:1, :] *)
Example read_case :
  exists v, view (infer_bounds [3; 4] [Rng 2 0 (-2); All]) m34 = Some v /\
    t_dims v = [2; 4] /\ t_at v [0; 3] = 23 /\ t_at v [1; 0] = 0.
Proof. eexists. split; [vm_compute; reflexivity |]. vm_compute. auto. Qed.

Example read_slice_case :
  lower_subs [Rng 3 1 (-2); All] = Some [Rng 2 0 (-2); All] /\
  slice_of 1 [Rng 3 1 (-2); All] [1; 4] [2; 4].
Proof.
  split; [reflexivity |]. apply (so_rng 1 3 1 (-2) 1). constructor. constructor.
Qed.

Example sizes_case : slice_dims [3; 4] [Rng 3 1 (-2); All] [2; 4] /\
                     no_empty [Rng 3 1 (-2); All].
Proof.
  split.
  - constructor.
    + split; [lia |]. intros k Hk. lia.
    + constructor. constructor.
  - intros b e s [H | [H | []]]; [injection H as <- <- <-; lia | discriminate].
Qed.

(** (x[2:3, :])[:, 1:2:3] at (1, 1): ranks 2 and 2. *)
Definition chain1 : list (nat * list sub) :=
  [(2%nat, [Rng 1 2 1; Rng 0 3 1]); (2%nat, [Rng 0 1 1; Rng 0 2 2])].
Example fold_case :
  chain_of 0 (map snd chain1) [2; 2] [1; 1] /\
  Forall (fun c => snd c <> [] /\ plain (snd c)) chain1 /\
  (exists v, views (map snd chain1) m34 = Some v /\ extract (map At [1; 1]) v = Some 22) /\
  fold_extract (rev chain1) [1; 1] = ([], [2; 2]).
Proof.
  split; [| split; [| split]].
  - apply (co_cons 0 [Rng 1 2 1; Rng 0 3 1] _ [2; 2] [1; 2]).
    + apply (so_rng 0 1 2 1 1). apply (so_rng 0 0 3 1 2 [] [] []). constructor.
    + apply (co_cons 0 [Rng 0 1 1; Rng 0 2 2] _ [1; 2] [1; 1]); [| constructor].
      apply (so_rng 0 0 1 1 1). apply (so_rng 0 0 2 2 1 [] [] []). constructor.
  - constructor; [| constructor; [| constructor]]; (split; [discriminate |]);
      intros x [<- | [<- | []]]; right; eauto.
  - eexists. split; vm_compute; reflexivity.
  - vm_compute. reflexivity.
Qed.

Example merge_case :
  Forall only_indices [[At 1]] /\
  exists w, views ([[At 1]] ++ [[Rng 1 2 1]]) m34 = Some w /\ t_at w [0] = 11.
Proof.
  split.
  - constructor; [| constructor]. intros x [<- | []]. eauto.
  - eexists. split; vm_compute; reflexivity.
Qed.

Definition m33 : tensor Z :=
  mkT [3; 3] (fun i => match i with [a; b] => 10 * a + b | _ => -1 end).
Example merge_refuted_case :
  match views [[Rng 0 2 1]; [At 1]] m33, view (merge_views [[Rng 0 2 1]; [At 1]]) m33 with
  | Some row, Some column => (t_at row [2], t_at column [2])
  | _, _ => (0, 0)
  end = (12, 21).
Proof. vm_compute. reflexivity. Qed.

(** An access the merging breaks. *)
Example merge_extract_case :
  exists v, views [[Rng 1 2 1]] m34 = Some v /\ extract (map At [1; 1]) v = Some 21 /\
    extract (merge_extract [[Rng 1 2 1]] (map At [1; 1])) m34 = None.
Proof. eexists. split; [vm_compute; reflexivity |]. vm_compute. auto. Qed.

Example write_case :
  exists ps, insert_parts [3; 4] [At 1; Rng 0 2 2] [2] = Some ps /\ locate ps [1] = [1; 2] /\
    slice_of 0 [At 1; Rng 0 2 2] [1; 2] [1].
Proof.
  eexists. split; [reflexivity |]. split; [reflexivity |].
  constructor. apply (so_rng 0 0 2 2 1 [] [] []). constructor.
Qed.

(** r.x[3:-1:1] := {...}: the second element goes to index -1. *)
Example write_refuted_case :
  match insert_parts [3] [Rng 2 0 (-1)] [3] with
  | Some ps => [locate ps [0]; locate ps [1]; locate ps [2]]
  | None => []
  end = [[0]; [-1]; [-2]].
Proof. vm_compute. reflexivity. Qed.
