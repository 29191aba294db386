(** Properties C08-C17 and C50: index sets. *)
From Coq Require Import ZArith List Bool Lia.
From Verif Require Import RangeModel MDRangeModel Spec Result RTreeModel IndexSetModel
  IndexSetIterModel IndexSetSpec IndexSetWitness IndexSetHistProofs IndexSetCompareProofs.
Import ListNotations.
Open Scope Z_scope.

(** ** C08. After adding a point, a box or an index set, the index set contains
    exactly the old points plus the added ones. Missing in the partial
    theorems: that the operation always ends without undefined behaviour, which
    is false ([C08_additions_refuted]). *)
Theorem C08_insert_partial : forall c rk t b t', built c rk t -> box_of rk b ->
  is_insert isMin isMax t b = Ok t' ->
  forall p, length p = rk -> (holds t' p <-> holds t p \/ in_box p b).
Proof. exact insert_holds. Qed.
Print Assumptions C08_insert_partial.

Theorem C08_insert_point_partial : forall c rk t q t', built c rk t -> (1 <= rk)%nat ->
  length q = rk -> is_insert_point isMin isMax t q = Ok t' ->
  forall p, length p = rk -> (holds t' p <-> holds t p \/ p = q).
Proof. exact insert_point_holds. Qed.
Print Assumptions C08_insert_point_partial.

Theorem C08_insert_set_partial : forall c c' rk t u t', (1 <= rk)%nat ->
  built c rk t -> built c' rk u -> is_insert_set isMin isMax t u = Ok t' ->
  forall p, length p = rk -> (holds t' p <-> holds t p \/ holds u p).
Proof. exact insert_set_holds. Qed.
Print Assumptions C08_insert_set_partial.

(** Every history of additions, from the empty set. *)
Theorem C08_additions_partial : forall rk l t, (1 <= rk)%nat -> Forall (box_of rk) l ->
  run is_empty_set (map Add l) = Ok t ->
  forall p, length p = rk -> (holds t p <-> in_boxes p l).
Proof. exact additions_holds. Qed.
Print Assumptions C08_additions_partial.

(** In a region of at most 16 points every history of additions and removals,
    however long, is defined and exact. *)
Theorem C08_C09_small_regions : forall rk L h, (1 <= rk)%nat -> (length L <= isMax)%nat ->
  Forall (fun e => box_of rk (edit_box e)) h ->
  (forall b p, In (Add b) h -> in_box p b -> In p L) ->
  exists t, run is_empty_set h = Ok t /\ forall p, length p = rk -> (holds t p <-> after h p).
Proof. exact small_history_holds. Qed.
Print Assumptions C08_C09_small_regions.

(** Adding 48 distinct points, one at a time, uses a freed node. *)
Theorem C08_additions_refuted : exists l, Forall (box_of 2) l /\
  run is_empty_set (map Add l) = Bad.
Proof.
  exists (map unit2 pointsUB). split.
  - apply Forall_map, Forall_forall. intros [x y] _. split; auto. split; [discriminate|].
    repeat constructor; unfold range_ok; cbn; lia.
  - vm_compute. reflexivity.
Qed.
Print Assumptions C08_additions_refuted.

Example C08_case : exists t, run is_empty_set
    (map Add [box2 0 10 0 5; box2 3 12 2 8; box2 20 21 0 1; box2 0 4 0 9]) = Ok t /\
  holds t [3; 7] /\ holds t [11; 7] /\ ~ holds t [5; 9] /\ built true 2 t.
Proof.
  eexists. split; [vm_compute; reflexivity|].
  split; [vm_compute; reflexivity|]. split; [vm_compute; reflexivity|].
  split; [vm_compute; discriminate|].
  refine (run_built 2 (map Add [box2 0 10 0 5; box2 3 12 2 8; box2 20 21 0 1; box2 0 4 0 9]) _ _ _).
  - repeat constructor; try discriminate; unfold range_ok; cbn; lia.
  - vm_compute. reflexivity.
Qed.
(** A tree of several levels: 64 points bulk loaded, then 180 added. *)
Example C08_deep_case : exists t u, is_of_points isMin isMax spread = Ok t /\
  fold_res (is_insert_point isMin isMax) filler t = Ok u /\
  length (is_ranges u) = 244%nat /\ holds u [752] /\ ~ holds u [754].
Proof.
  destruct (is_of_points isMin isMax spread) as [t| |] eqn:Et;
    [|vm_compute in Et; discriminate|vm_compute in Et; discriminate].
  exists t. vm_compute in Et. injection Et as <-.
  eexists. split; [reflexivity|]. split; [vm_compute; reflexivity|].
  split; [vm_compute; reflexivity|]. split; [vm_compute; reflexivity|vm_compute; discriminate].
Qed.

(** ** C09. After a removal, the index set contains exactly the old points minus
    the removed ones. Proved: nothing else is lost and nothing appears. Missing:
    that all the removed points disappear and that the operation is always
    defined, both false ([C09_removals_refuted], [C09_removals_defined_refuted]);
    they hold in small regions ([C08_C09_small_regions]). *)
Theorem C09_remove_partial : forall c rk t b t', built c rk t -> box_of rk b ->
  is_remove isMin isMax t b = Ok t' ->
  forall p, length p = rk ->
    (holds t' p -> holds t p) /\ (holds t p /\ ~ in_box p b -> holds t' p).
Proof. exact remove_holds. Qed.
Print Assumptions C09_remove_partial.

Theorem C09_remove_point_partial : forall c rk t q t', built c rk t -> (1 <= rk)%nat ->
  length q = rk -> is_remove_point isMin isMax t q = Ok t' ->
  forall p, length p = rk ->
    (holds t' p -> holds t p) /\ (holds t p /\ p <> q -> holds t' p).
Proof. exact remove_point_holds. Qed.
Print Assumptions C09_remove_point_partial.

Theorem C09_remove_set_partial : forall c c' rk t u t', (1 <= rk)%nat ->
  built c rk t -> built c' rk u -> is_remove_set isMin isMax t u = Ok t' ->
  forall p, length p = rk ->
    (holds t' p -> holds t p) /\ (holds t p /\ ~ holds u p -> holds t' p).
Proof. exact remove_set_holds. Qed.
Print Assumptions C09_remove_set_partial.

(** Every history of additions and removals, from the empty set. *)
Theorem C09_history_partial : forall rk h t, (1 <= rk)%nat ->
  Forall (fun e => box_of rk (edit_box e)) h -> run is_empty_set h = Ok t ->
  forall p, length p = rk ->
    (after h p -> holds t p) /\ (holds t p -> exists b, In (Add b) h /\ in_box p b).
Proof. exact history_holds. Qed.
Print Assumptions C09_history_partial.

(** A removed point is still there. *)
Theorem C09_removals_refuted : exists h t p,
  Forall (fun e => box_of 2 (edit_box e)) h /\ run is_empty_set h = Ok t /\
  length p = 2%nat /\ holds t p /\ ~ after h p.
Proof.
  destruct (run is_empty_set historyLost) as [t| |] eqn:E;
    [|vm_compute in E; discriminate|vm_compute in E; discriminate].
  exists historyLost, t, [6; 24]. split; [|split; [exact E|split; [reflexivity|split]]].
  - unfold historyLost. repeat (apply Forall_app; split).
    + apply Forall_map, Forall_forall. intros [x y] _. split; auto. split; [discriminate|].
      repeat constructor; unfold range_ok; cbn; lia.
    + repeat constructor; try discriminate; unfold range_ok; cbn; lia.
    + apply Forall_map, Forall_forall. intros [x y] _. split; auto. split; [discriminate|].
      repeat constructor; unfold range_ok; cbn; lia.
    + repeat constructor; try discriminate; unfold range_ok; cbn; lia.
  - vm_compute in E. injection E as <-. vm_compute. reflexivity.
  - unfold historyLost. rewrite !app_assoc, after_snoc. intros [_ H]. apply H.
    repeat constructor; unfold in_range; cbn; lia.
Qed.
Print Assumptions C09_removals_refuted.

(** Removing one point from a set of points uses a freed node. *)
Theorem C09_removals_defined_refuted : exists t u q, built true 1 t /\
  fold_res (is_insert_point isMin isMax) filler t = Ok u /\ length q = 1%nat /\
  is_remove_point isMin isMax u q = Bad.
Proof.
  destruct (is_of_points isMin isMax spread) as [t| |] eqn:Et;
    [|vm_compute in Et; discriminate|vm_compute in Et; discriminate].
  exists t. eexists. exists [810]. split; [|split].
  - refine (built_points 1 spread t _ _ Et); [lia|]. vm_compute. repeat constructor.
  - vm_compute in Et. injection Et as <-. vm_compute. reflexivity.
  - split; [reflexivity|]. vm_compute. reflexivity.
Qed.
Print Assumptions C09_removals_defined_refuted.

Example C09_case : exists t, run is_empty_set
    [Add (box2 0 10 0 5); Remove (box2 3 5 1 2); Add (box2 4 5 1 9); Remove (box2 0 1 0 100)] = Ok t /\
  holds t [4; 1] /\ ~ holds t [3; 1] /\ ~ holds t [0; 0] /\ holds t [1; 0].
Proof.
  eexists. split; [vm_compute; reflexivity|].
  split; [vm_compute; reflexivity|]. split; [vm_compute; discriminate|].
  split; [vm_compute; discriminate|vm_compute; reflexivity].
Qed.
(** A region of 16 points and a history within it. *)
Example C08_C09_small_case :
  let L := list_prod [0; 1; 2; 3] [0; 1; 2; 3] in
  let h := [Add (box2 0 4 0 2); Remove (box2 1 2 (-5) 9); Add (box2 1 3 1 4)] in
  length L = isMax /\ Forall (fun e => box_of 2 (edit_box e)) h /\
  forall b p, In (Add b) h -> in_box p b -> In p (map (fun q => [fst q; snd q]) L).
Proof.
  cbn zeta. split; [reflexivity|]. split.
  - repeat constructor; try discriminate; unfold range_ok; cbn; lia.
  - intros b p Hb Hp.
    assert (exists x y, p = [x; y] /\ 0 <= x < 4 /\ 0 <= y < 4) as (x & y & -> & Hx & Hy).
    { destruct Hb as [E|[E|[E|[]]]]; try discriminate; injection E as <-;
        inversion Hp as [|x r p' b' H1 H2]; subst; inversion H2 as [|y r' p'' b'' H3 H4]; subst;
        inversion H4; subst; exists x, y; unfold in_range in *; cbn in *; split; auto; lia. }
    apply in_map_iff. exists (x, y). split; auto. apply in_prod; cbn; lia.
Qed.

(** ** C10. An index set built from a list of points or boxes contains exactly
    their points. Its stored ranges do not overlap when the boxes of the list do
    not, or are points; they may overlap otherwise ([C10_disjoint_refuted]). *)
Theorem C10_of_boxes : forall rk l, (1 <= rk)%nat -> Forall (box_of rk) l ->
  exists t, is_setFromRanges isMin isMax l = Ok t /\
    Forall (box_of rk) (is_ranges t) /\
    (forall p, length p = rk -> (holds t p <-> in_boxes p l)) /\
    (disj l -> disj (is_ranges t)).
Proof. exact of_boxes. Qed.
Print Assumptions C10_of_boxes.

Theorem C10_of_points : forall rk l, (1 <= rk)%nat -> Forall (fun p => length p = rk) l ->
  exists t, is_of_points isMin isMax l = Ok t /\
    Forall (box_of rk) (is_ranges t) /\
    (forall p, length p = rk -> (holds t p <-> In p l)) /\
    disj (is_ranges t).
Proof. exact of_points. Qed.
Print Assumptions C10_of_points.

Definition overlapping : list mdrange := [[mkRange 0 3]; [mkRange 0 10]; [mkRange 1 2]].
Lemma overlapping_boxes : Forall (box_of 1) overlapping.
Proof. repeat constructor; try discriminate; unfold range_ok; cbn; lia. Qed.

Theorem C10_disjoint_refuted : exists l t, Forall (box_of 1) l /\
  is_setFromRanges isMin isMax l = Ok t /\ ~ disj (is_ranges t).
Proof.
  exists overlapping. eexists. split; [exact overlapping_boxes|]. split; [vm_compute; reflexivity|].
  intros H. apply (disj_nth _ 0 2 []) in H; [|cbn; lia]. apply (H [1]).
  split; repeat constructor; unfold in_range; cbn; lia.
Qed.
Print Assumptions C10_disjoint_refuted.

Example C10_case : exists t, is_of_points isMin isMax [[3; 1]; [3; 2]; [4; 1]; [3; 1]] = Ok t /\
  holds t [3; 2] /\ ~ holds t [4; 2].
Proof. eexists. split; [vm_compute; reflexivity|]. split; [reflexivity|discriminate]. Qed.

(** ** C11. The queries are exact. *)
Theorem C11_contains_point : forall c rk t p, (1 <= rk)%nat -> built c rk t -> length p = rk ->
  exists v, is_contains_point t p = Ok v /\ (v = true <-> in_boxes p (is_ranges t)).
Proof. exact contains_point_ranges. Qed.
Print Assumptions C11_contains_point.

Theorem C11_contains_box : forall c rk t b, built c rk t -> box_of rk b ->
  exists v, is_contains_box t b = Ok v /\ (v = true <-> forall p, in_box p b -> holds t p).
Proof. exact contains_box_holds. Qed.
Print Assumptions C11_contains_box.

Theorem C11_overlaps_box : forall c rk t b, built c rk t -> box_of rk b ->
  exists v, is_overlaps_box t b = Ok v /\ (v = true <-> exists p, in_box p b /\ holds t p).
Proof. exact overlaps_box_holds. Qed.
Print Assumptions C11_overlaps_box.

Theorem C11_overlaps_set : forall c c' rk t u, (1 <= rk)%nat -> built c rk t -> built c' rk u ->
  exists v, is_overlaps_set t u = Ok v
    /\ (v = true <-> exists p, length p = rk /\ holds t p /\ holds u p).
Proof. exact overlaps_set_holds. Qed.
Print Assumptions C11_overlaps_set.

(** contains(IndexSet): exact when the ranges stored by the argument do not
    overlap; wrong otherwise ([C11_contains_set_refuted]). *)
Theorem C11_contains_set_partial : forall c rk t u, (1 <= rk)%nat ->
  built c rk t -> built true rk u ->
  exists N v, (forall fuel, (N <= fuel)%nat -> is_contains_set fuel t u = Ok v)
    /\ (v = true <-> forall p, length p = rk -> holds u p -> holds t p).
Proof. exact contains_set_holds. Qed.
Print Assumptions C11_contains_set_partial.

Theorem C11_contains_set_refuted : exists t u, built true 1 t /\ built false 1 u /\
  (forall p, length p = 1%nat -> holds u p -> holds t p) /\
  forall fuel, is_contains_set fuel t u = Ok false.
Proof.
  destruct (is_setFromRanges isMin isMax [[mkRange 0 10]]) as [t| |] eqn:Et;
    [|vm_compute in Et; discriminate|vm_compute in Et; discriminate].
  destruct (is_setFromRanges isMin isMax overlapping) as [u| |] eqn:Eu;
    [|vm_compute in Eu; discriminate|vm_compute in Eu; discriminate].
  assert (Fl : Forall (box_of 1) [[mkRange 0 10]]).
  { repeat constructor; try discriminate; unfold range_ok; cbn; lia. }
  exists t, u. split; [|split; [|split]].
  - refine (built_disjoint 1 [[mkRange 0 10]] t Fl _ Et). repeat constructor.
  - exact (built_boxes 1 overlapping u overlapping_boxes Eu).
  - intros p L. rewrite (boxes_holds 1 overlapping u (le_n 1) overlapping_boxes Eu p L),
      (boxes_holds 1 [[mkRange 0 10]] t (le_n 1) Fl Et p L).
    intros (b & Hb & Hp). exists [mkRange 0 10]. split; [left; auto|].
    destruct Hb as [<-|[<-|[<-|[]]]]; inversion Hp as [|x r p' b' H1 H2]; subst; inversion H2; subst;
      repeat constructor; unfold in_range in *; cbn in *; lia.
  - intros fuel. vm_compute in Et, Eu. injection Et as <-. injection Eu as <-. reflexivity.
Qed.
Print Assumptions C11_contains_set_refuted.

Example C11_case : exists t,
  is_setFromRanges isMin isMax [box2 0 10 0 5; box2 3 12 2 8] = Ok t /\
  is_contains_box t (box2 3 10 0 8) = Ok true /\ is_contains_box t (box2 2 10 0 8) = Ok false /\
  is_overlaps_box t (box2 (-3) 3 5 9) = Ok false /\ is_overlaps_box t (box2 (-3) 4 5 9) = Ok true.
Proof. eexists. split; [vm_compute; reflexivity|]. repeat split; vm_compute; reflexivity. Qed.

(** ** C12. The intersection is exact. *)
Theorem C12_intersect_box : forall c rk t b, built c rk t -> box_of rk b ->
  exists t', is_intersect_box isMin isMax t b = Ok t' /\ built c rk t'
    /\ forall p, length p = rk -> (holds t' p <-> holds t p /\ in_box p b).
Proof. exact intersect_box_holds. Qed.
Print Assumptions C12_intersect_box.

Theorem C12_intersect_set : forall c c' rk t u, (1 <= rk)%nat -> built c rk t -> built c' rk u ->
  exists t', is_intersect_set isMin isMax t u = Ok t' /\ built (c && c') rk t'
    /\ forall p, length p = rk -> (holds t' p <-> holds t p /\ holds u p).
Proof. exact intersect_set_holds. Qed.
Print Assumptions C12_intersect_set.

Example C12_case : exists t u v,
  is_setFromRanges isMin isMax [box2 0 10 0 5; box2 20 25 2 8] = Ok t /\
  is_setFromRanges isMin isMax [box2 3 22 4 6; box2 0 1 0 1] = Ok u /\
  is_intersect_set isMin isMax t u = Ok v /\
  is_ranges v = [box2 0 1 0 1; box2 3 10 4 5; box2 20 22 4 6].
Proof.
  do 3 eexists. split; [vm_compute; reflexivity|]. split; [vm_compute; reflexivity|].
  split; vm_compute; reflexivity.
Qed.

(** ** C13. The complement is exact. *)
Theorem C13_complement : forall c rk t b, built c rk t -> box_of rk b ->
  exists t', is_complement isMin isMax t b = Ok t' /\ built true rk t'
    /\ forall p, length p = rk -> (holds t' p <-> in_box p b /\ ~ holds t p).
Proof. exact complement_holds. Qed.
Print Assumptions C13_complement.

Example C13_case : exists t u,
  is_setFromRanges isMin isMax [box2 0 10 0 5; box2 20 25 2 8] = Ok t /\
  is_complement isMin isMax t (box2 5 22 3 6) = Ok u /\
  is_ranges u = [box2 5 10 5 6; box2 10 20 3 6].
Proof.
  do 2 eexists. split; [vm_compute; reflexivity|]. split; vm_compute; reflexivity.
Qed.

(** ** C14. Projections and products are exact. *)
Theorem C14_slice : forall c rk t bits, built c rk t -> is_empty t = false ->
  length bits = rk -> (1 <= ones bits)%nat ->
  exists t', is_slice isMin isMax t bits = Ok t' /\ built false (ones bits) t'
    /\ forall q, length q = ones bits ->
       (holds t' q <-> exists p, length p = rk /\ holds t p /\ q = select bits p).
Proof. exact slice_holds. Qed.
Print Assumptions C14_slice.

Theorem C14_takeFirst : forall c rk t n, built c rk t -> is_empty t = false -> (1 <= n <= rk)%nat ->
  exists t', is_takeFirst isMin isMax t n = Ok t' /\ built false n t'
    /\ forall q, length q = n ->
       (holds t' q <-> exists p, length p = rk /\ holds t p /\ q = firstn n p).
Proof. exact takeFirst_holds. Qed.
Print Assumptions C14_takeFirst.

Theorem C14_takeLast : forall c rk t n, built c rk t -> is_empty t = false -> (1 <= n <= rk)%nat ->
  exists t', is_takeLast isMin isMax t n = Ok t' /\ built false n t'
    /\ forall q, length q = n ->
       (holds t' q <-> exists p, length p = rk /\ holds t p /\ q = skipn (rk - n) p).
Proof. exact takeLast_holds. Qed.
Print Assumptions C14_takeLast.

Theorem C14_dropFirst : forall c rk t n, built c rk t -> is_empty t = false -> (n < rk)%nat ->
  exists t', is_dropFirst isMin isMax t n = Ok t' /\ built false (rk - n) t'
    /\ forall q, length q = (rk - n)%nat ->
       (holds t' q <-> exists p, length p = rk /\ holds t p /\ q = skipn n p).
Proof. exact dropFirst_holds. Qed.
Print Assumptions C14_dropFirst.

Theorem C14_dropLast : forall c rk t n, built c rk t -> is_empty t = false -> (n < rk)%nat ->
  exists t', is_dropLast isMin isMax t n = Ok t' /\ built false (rk - n) t'
    /\ forall q, length q = (rk - n)%nat ->
       (holds t' q <-> exists p, length p = rk /\ holds t p /\ q = firstn (rk - n) p).
Proof. exact dropLast_holds. Qed.
Print Assumptions C14_dropLast.

Theorem C14_append : forall c c' rk rk' t u, (1 <= rk)%nat -> (1 <= rk')%nat ->
  built c rk t -> built c' rk' u -> is_empty t = false ->
  exists t', is_append isMin isMax t u = Ok t' /\ built (c && c') (rk + rk') t'
    /\ forall p p', length p = rk -> length p' = rk' ->
       (holds t' (p ++ p') <-> holds t p /\ holds u p').
Proof. exact append_holds. Qed.
Print Assumptions C14_append.

Theorem C14_prepend : forall c c' rk rk' t u, (1 <= rk)%nat -> (1 <= rk')%nat ->
  built c rk t -> built c' rk' u -> is_empty t = false ->
  exists t', is_prepend isMin isMax t u = Ok t' /\ built (c && c') (rk' + rk) t'
    /\ forall p p', length p = rk -> length p' = rk' ->
       (holds t' (p' ++ p) <-> holds t p /\ holds u p').
Proof. exact prepend_holds. Qed.
Print Assumptions C14_prepend.

(** The projections, and the products by another set, of the empty set are the
    empty set. *)
Theorem C14_empty : forall t u bits n, is_empty t = true ->
  is_slice isMin isMax t bits = Ok t /\
  ((n <= is_rank t)%nat -> is_takeFirst isMin isMax t n = Ok t /\
                            is_takeLast isMin isMax t n = Ok t) /\
  ((n < is_rank t)%nat -> is_dropFirst isMin isMax t n = Ok t /\
                           is_dropLast isMin isMax t n = Ok t) /\
  is_append isMin isMax t u = Ok t /\ is_prepend isMin isMax t u = Ok t.
Proof. exact empty_projections. Qed.
Print Assumptions C14_empty.

Example C14_case : exists t u v,
  is_setFromRanges isMin isMax [box2 0 10 0 5; box2 20 25 2 8] = Ok t /\ is_empty t = false /\
  is_takeLast isMin isMax t 1 = Ok u /\ holds u [7] /\ ~ holds u [8] /\
  is_append isMin isMax u t = Ok v /\ holds v [7; 9; 4] /\ ~ holds v [9; 4; 7].
Proof.
  do 3 eexists. split; [vm_compute; reflexivity|]. split; [vm_compute; reflexivity|].
  split; [vm_compute; reflexivity|]. split; [vm_compute; reflexivity|].
  split; [vm_compute; discriminate|]. split; [vm_compute; reflexivity|].
  split; [vm_compute; reflexivity|vm_compute; discriminate].
Qed.

(** ** C15. The iteration visits the points of the set, all of them; each once,
    in a number equal to size(), when the stored ranges do not overlap. *)
Theorem C15_iteration_partial : forall c rk t, (1 <= rk)%nat -> built c rk t ->
  exists l, (forall fuel, (Z.to_nat (is_size t) <= fuel)%nat -> is_iterate fuel t = Ok l)
    /\ (forall p, In p l <-> length p = rk /\ holds t p)
    /\ (c = true -> NoDup l /\ is_size t = Z.of_nat (length l)).
Proof. exact iterate_holds. Qed.
Print Assumptions C15_iteration_partial.

(** A set of 10 points has size 11 and iterates one of them twice. *)
Theorem C15_iteration_refuted : exists t l, built false 1 t /\
  (forall p, length p = 1%nat -> (holds t p <-> in_box p [mkRange 0 10])) /\
  is_size t = 11 /\ is_iterate 11 t = Ok l /\ ~ NoDup l.
Proof.
  destruct (is_setFromRanges isMin isMax overlapping) as [u| |] eqn:Eu;
    [|vm_compute in Eu; discriminate|vm_compute in Eu; discriminate].
  exists u. eexists. split; [exact (built_boxes 1 overlapping u overlapping_boxes Eu)|].
  split; [|split; [|split]].
  - intros p L. rewrite (boxes_holds 1 overlapping u (le_n 1) overlapping_boxes Eu p L). split.
    + intros (b & Hb & Hp). destruct Hb as [<-|[<-|[<-|[]]]];
        inversion Hp as [|x r p' b' H1 H2]; subst; inversion H2; subst;
        repeat constructor; unfold in_range in *; cbn in *; lia.
    + intros H. exists [mkRange 0 10]. split; auto. cbn. auto.
  - vm_compute in Eu. injection Eu as <-. reflexivity.
  - vm_compute in Eu. injection Eu as <-. vm_compute. reflexivity.
  - intros H. inversion H as [|x l H1 H2]; subst. inversion H2 as [|x l H3 H4]; subst. apply H3.
    cbn. tauto.
Qed.
Print Assumptions C15_iteration_refuted.

Example C15_case : exists t,
  is_of_points isMin isMax [[3; 1]; [3; 2]; [4; 1]; [3; 1]] = Ok t /\
  is_iterate 3 t = Ok [[3; 1]; [3; 2]; [4; 1]] /\ is_size t = 3.
Proof. eexists. split; [vm_compute; reflexivity|]. split; vm_compute; reflexivity. Qed.

(** ** C16. Equality is set equality, as soon as one of the sets is not empty. *)
Theorem C16_equality_partial : forall c c' rk t u, (1 <= rk)%nat ->
  built c rk t -> built c' rk u -> is_empty t = false \/ is_empty u = false ->
  exists v, is_eq t u = Ok v
    /\ (v = true <-> forall p, length p = rk -> (holds t p <-> holds u p)).
Proof. exact eq_holds. Qed.
Print Assumptions C16_equality_partial.

(** Two empty sets may differ: intersecting a set with a far box inside its
    bounding box or outside of it gives two different empty sets. *)
Theorem C16_equality_refuted : exists t u v, built true 1 t /\
  is_intersect_box isMin isMax t [mkRange 5 6] = Ok u /\
  is_intersect_box isMin isMax t [mkRange 50 60] = Ok v /\
  (forall p, ~ holds u p) /\ (forall p, ~ holds v p) /\ is_eq u v = Ok false.
Proof.
  destruct (is_of_points isMin isMax [[0]; [10]]) as [t| |] eqn:Et;
    [|vm_compute in Et; discriminate|vm_compute in Et; discriminate].
  exists t. eexists. eexists. split.
  - refine (built_points 1 [[0]; [10]] t _ _ Et); [lia|]. repeat constructor.
  - vm_compute in Et. injection Et as <-. split; [vm_compute; reflexivity|].
    split; [vm_compute; reflexivity|]. split; [intros p; apply empty_holds; reflexivity|].
    split; [intros p; apply empty_holds; reflexivity|]. vm_compute. reflexivity.
Qed.
Print Assumptions C16_equality_refuted.

Example C16_case : exists t u,
  is_setFromRanges isMin isMax [box2 0 10 0 5; box2 0 10 5 8] = Ok t /\
  is_setFromRanges isMin isMax [box2 0 3 0 8; box2 2 10 0 8] = Ok u /\
  is_empty t = false /\ is_eq t u = Ok true.
Proof.
  do 2 eexists. split; [vm_compute; reflexivity|]. split; [vm_compute; reflexivity|].
  split; vm_compute; reflexivity.
Qed.

(** ** C53. [compare] orders the index sets by their sequence of stored ranges:
    it is a total order on these sequences. *)
Theorem C53_compare_partial :
  (forall t u, is_compare t u = 0 <-> is_ranges t = is_ranges u) /\
  (forall t u, is_compare u t = - is_compare t u) /\
  (forall t u v, is_compare t u <= 0 -> is_compare u v <= 0 -> is_compare t v <= 0) /\
  (forall t u, is_compare t u < 0 <->
     exists common a b, is_ranges t = common ++ a /\ is_ranges u = common ++ b /\
       ((a = [] /\ b <> []) \/
        exists x a' y b', a = x :: a' /\ b = y :: b' /\ mdrange_compare x y < 0)).
Proof. exact compare_total. Qed.
Print Assumptions C53_compare_partial.

Example C53_case : exists t u, is_setFromRanges isMin isMax [box2 0 2 0 2] = Ok t /\
  is_setFromRanges isMin isMax [box2 0 2 0 2; box2 5 6 7 8] = Ok u /\
  is_compare t u = -1 /\ is_compare u t = 1.
Proof. do 2 eexists. repeat split; vm_compute; reflexivity. Qed.

(** The property would need equal sets to compare equal: they do not. *)
Theorem C53_compare_refuted : exists t u, built false 2 t /\ built false 2 u /\
  (forall p, length p = 2%nat -> (holds t p <-> holds u p)) /\ is_compare t u <> 0.
Proof.
  destruct (is_setFromRanges isMin isMax [box2 0 10 0 5; box2 0 10 5 8]) as [t| |] eqn:Et;
    [|vm_compute in Et; discriminate|vm_compute in Et; discriminate].
  destruct (is_setFromRanges isMin isMax [box2 0 3 0 8; box2 2 10 0 8]) as [u| |] eqn:Eu;
    [|vm_compute in Eu; discriminate|vm_compute in Eu; discriminate].
  exists t, u.
  assert (Bt : built false 2 t).
  { refine (built_boxes 2 _ t _ Et). repeat constructor; try discriminate; unfold range_ok; cbn; lia. }
  assert (Bu : built false 2 u).
  { refine (built_boxes 2 _ u _ Eu). repeat constructor; try discriminate; unfold range_ok; cbn; lia. }
  split; [assumption|]. split; [assumption|].
  vm_compute in Et, Eu. injection Et as <-. injection Eu as <-. split.
  - destruct (C16_equality_partial _ _ 2 _ _ (le_S _ _ (le_n 1)) Bt Bu (or_introl eq_refl)) as (v & Hv & H).
    apply H. vm_compute in Hv. now injection Hv as <-.
  - vm_compute. discriminate.
Qed.
Print Assumptions C53_compare_refuted.

(** ** C17. The compact ranges have the points of the set; they are disjoint
    when the stored ranges are. *)
Theorem C17_compact_partial : forall c rk t, (1 <= rk)%nat -> built c rk t ->
  exists l, is_getCompactRanges t = Ok l /\ Forall (box_of rk) l
    /\ (forall p, length p = rk -> (holds t p <-> in_boxes p l))
    /\ (c = true -> disj l).
Proof. exact compact_holds. Qed.
Print Assumptions C17_compact_partial.

Theorem C17_compact_refuted : exists t l, built false 2 t /\
  is_getCompactRanges t = Ok l /\ ~ disj l.
Proof.
  destruct (is_setFromRanges isMin isMax [box2 1 10 0 5; box2 3 4 7 8; box2 6 7 2 3]) as [t| |] eqn:Et;
    [|vm_compute in Et; discriminate|vm_compute in Et; discriminate].
  exists t. eexists. split.
  - refine (built_boxes 2 _ t _ Et). repeat constructor; try discriminate; unfold range_ok; cbn; lia.
  - vm_compute in Et. injection Et as <-. split; [vm_compute; reflexivity|].
    intros H. apply (disj_nth _ 0 2 []) in H; [|cbn; lia]. apply (H [6; 2]).
    split; repeat constructor; unfold in_range; cbn; lia.
Qed.
Print Assumptions C17_compact_refuted.

Example C17_case : exists t,
  is_of_points isMin isMax [[3; 1]; [3; 2]; [4; 1]; [4; 2]; [7; 7]] = Ok t /\
  is_getCompactRanges t = Ok [box2 3 5 1 3; box2 7 8 7 8].
Proof. eexists. split; vm_compute; reflexivity. Qed.

(** ** C50. Index sets with the same points have the same hash, when their stored
    ranges do not overlap. *)
Theorem C50_hash_partial : forall H rk t u, (1 <= rk)%nat -> built true rk t -> built true rk u ->
  (forall p, length p = rk -> (holds t p <-> holds u p)) -> is_hash H t = is_hash H u.
Proof. exact hash_holds. Qed.
Print Assumptions C50_hash_partial.

Theorem C50_hash_refuted : exists t u, built true 1 t /\ built false 1 u /\
  is_eq t u = Ok true /\ forall H, is_hash H t = H 10 /\ is_hash H u = H 11.
Proof.
  destruct (is_setFromRanges isMin isMax [[mkRange 0 10]]) as [t| |] eqn:Et;
    [|vm_compute in Et; discriminate|vm_compute in Et; discriminate].
  destruct (is_setFromRanges isMin isMax overlapping) as [u| |] eqn:Eu;
    [|vm_compute in Eu; discriminate|vm_compute in Eu; discriminate].
  exists t, u. split; [|split; [|split]].
  - refine (built_disjoint 1 [[mkRange 0 10]] t _ _ Et).
    + repeat constructor; try discriminate; unfold range_ok; cbn; lia.
    + repeat constructor.
  - exact (built_boxes 1 overlapping u overlapping_boxes Eu).
  - vm_compute in Et, Eu. injection Et as <-. injection Eu as <-. vm_compute. reflexivity.
  - intros H. vm_compute in Et, Eu. injection Et as <-. injection Eu as <-. split; reflexivity.
Qed.
Print Assumptions C50_hash_refuted.

Example C50_case : exists t u, is_of_points isMin isMax [[3; 1]; [3; 2]; [4; 1]] = Ok t /\
  is_setFromRanges isMin isMax [box2 4 5 1 2; box2 3 4 1 3] = Ok u /\ t <> u /\ is_eq t u = Ok true /\
  is_size t = is_size u.
Proof.
  do 2 eexists. split; [vm_compute; reflexivity|]. split; [vm_compute; reflexivity|].
  split; [discriminate|]. split; vm_compute; reflexivity.
Qed.
