(** Properties C01-C07 and C49: ranges, boxes and points. *)
From Coq Require Import ZArith List Bool Lia Sorting.Sorted.
From Verif Require Import RangeModel MDRangeModel Spec RangeProofs MDRangeProofs.
Import ListNotations.
Open Scope Z_scope.

(** C01. Range queries are exact set queries. *)
Theorem C01_range_queries : forall r o : range, range_ok r -> range_ok o ->
  (forall v, range_contains_value r v = true <-> in_range v r) /\
  (range_contains r o = true <-> forall v, in_range v o -> in_range v r) /\
  (range_overlaps r o = true <-> exists v, in_range v r /\ in_range v o) /\
  (range_overlaps r o = true ->
     range_ok (range_intersect r o) /\
     forall v, in_range v (range_intersect r o) <-> in_range v r /\ in_range v o).
Proof.
  intros r o Hr Ho. split; [|split; [|split]].
  - exact (range_contains_value_spec r).
  - exact (range_contains_spec r o Ho).
  - exact (range_overlaps_spec r o Hr Ho).
  - intros H. split; [exact (range_intersect_ok r o Hr Ho H)|].
    intros v. exact (range_intersect_spec r o v H).
Qed.
Print Assumptions C01_range_queries.

Example C01_case : range_ok (mkRange (-3) 5) /\ range_ok (mkRange 2 9) /\
  range_overlaps (mkRange (-3) 5) (mkRange 2 9) = true /\
  range_intersect (mkRange (-3) 5) (mkRange 2 9) = mkRange 2 5.
Proof. unfold range_ok; cbn; repeat split; lia. Qed.

(** C02. Merge and difference of ranges are exact. *)
Theorem C02_range_merge_and_difference : forall r o : range, range_ok r -> range_ok o ->
  (range_canBeMerged r o = true ->
     range_ok (range_merge r o) /\
     forall v, in_range v (range_merge r o) <-> in_range v r \/ in_range v o) /\
  (range_canBeMerged r o = false ->
     forall u, ~ (forall v, in_range v u <-> in_range v r \/ in_range v o)) /\
  (forall v, (exists s, In s (range_subtract r o) /\ in_range v s) <->
             in_range v r /\ ~ in_range v o) /\
  Forall range_ok (range_subtract r o) /\
  ForallOrdPairs (fun a b => rend a <= rbegin b) (range_subtract r o).
Proof.
  intros r o Hr Ho. split; [|split; [|split; [|split]]].
  - intros H. split; [exact (range_merge_ok r o Hr Ho H)|].
    intros v. exact (range_merge_spec r o v Hr Ho H).
  - intros H u. exact (range_not_mergeable r o u Hr Ho H).
  - intros v. exact (range_subtract_in r o v Hr Ho).
  - apply Forall_forall. intros s Hs. exact (range_subtract_ok r o s Hr Ho Hs).
  - exact (range_subtract_ordered r o Ho).
Qed.
Print Assumptions C02_range_merge_and_difference.

Example C02_case :
  range_canBeMerged (mkRange 0 3) (mkRange 3 7) = true /\
  range_canBeMerged (mkRange 0 3) (mkRange 4 7) = false /\
  range_subtract (mkRange 0 10) (mkRange 3 5) = [mkRange 0 3; mkRange 5 10].
Proof. repeat split. Qed.

(** C03. Box queries are exact set queries. *)
Theorem C03_box_queries : forall a b : mdrange,
  length a = length b -> mdrange_ok a -> mdrange_ok b ->
  (forall p, length p = length a -> (mdrange_contains_point a p = true <-> in_box p a)) /\
  (mdrange_contains a b = true <-> forall p, in_box p b -> in_box p a) /\
  (mdrange_overlaps a b = true <-> exists p, in_box p a /\ in_box p b) /\
  (mdrange_overlaps a b = true ->
     mdrange_ok (mdrange_intersect a b) /\
     forall p, in_box p (mdrange_intersect a b) <-> in_box p a /\ in_box p b).
Proof.
  intros a b HL [Hna Ha] [Hnb Hb]. split; [|split; [|split]].
  - intros p Hp. exact (mdrange_contains_point_spec a p Hp).
  - exact (mdrange_contains_spec a b HL Hb).
  - exact (mdrange_overlaps_spec a b HL Ha Hb).
  - intros H. split.
    + split; [|exact (mdrange_intersect_ok a b HL Ha Hb H)].
      intros E. pose proof (mdrange_intersect_length a b HL) as HI. rewrite E in HI.
      destruct a; [exact (Hna eq_refl)|discriminate].
    + intros p. exact (mdrange_intersect_spec a b p HL H).
Qed.
Print Assumptions C03_box_queries.

(** C03, anyDimensionOverlaps: some dimension has a common coordinate. *)
Theorem C03_any_dimension_overlaps : forall a b : mdrange,
  length a = length b -> mdrange_ok a -> mdrange_ok b ->
  (mdrange_anyDimensionOverlaps a b = true <->
   exists i r s v, nth_error a i = Some r /\ nth_error b i = Some s /\
     in_range v r /\ in_range v s).
Proof. intros a b HL [_ Ha] [_ Hb]. exact (mdrange_any_overlaps_spec a b HL Ha Hb). Qed.
Print Assumptions C03_any_dimension_overlaps.

Definition exA : mdrange := [mkRange 0 4; mkRange 1 6].
Definition exB : mdrange := [mkRange 2 9; mkRange 3 5].
Example C03_case : mdrange_ok exA /\ mdrange_ok exB /\ length exA = length exB /\
  mdrange_overlaps exA exB = true /\
  mdrange_intersect exA exB = [mkRange 2 4; mkRange 3 5].
Proof.
  repeat split; try discriminate; repeat constructor; unfold range_ok; cbn; lia.
Qed.

(** C04. The difference of two boxes. *)
Theorem C04_box_difference : forall a b : mdrange,
  length a = length b -> mdrange_ok a -> mdrange_ok b ->
  (forall p, in_boxes p (mdrange_subtract a b) <-> in_box p a /\ ~ in_box p b) /\
  ForallOrdPairs disjoint_boxes (mdrange_subtract a b) /\
  (forall c, In c (mdrange_subtract a b) -> mdrange_ok c /\ length c = length a).
Proof.
  intros a b HL [Hna Ha] [Hnb Hb]. split; [|split].
  - intros p. exact (mdrange_subtract_in a b p HL Ha Hb).
  - exact (mdrange_subtract_disjoint a b HL Ha Hb).
  - intros c Hc. pose proof (mdrange_subtract_ok a b c HL Ha Hb Hc) as [H1 H2].
    split; [split; [|exact H1]|exact H2].
    intros E. rewrite E in H2. destruct a; [exact (Hna eq_refl)|discriminate].
Qed.
Print Assumptions C04_box_difference.

Example C04_case : mdrange_subtract exA [mkRange 1 3; mkRange 2 9] =
  [[mkRange 0 1; mkRange 1 6]; [mkRange 3 4; mkRange 1 6]; [mkRange 1 3; mkRange 1 2]].
Proof. reflexivity. Qed.

(** C05. Merging boxes. *)
Theorem C05_box_merge : forall a b : mdrange,
  length a = length b -> mdrange_ok a -> mdrange_ok b ->
  (forall dim, mdrange_canBeMerged a b = (true, dim) ->
     mdrange_ok (mdrange_merge a b dim) /\
     forall p, in_box p (mdrange_merge a b dim) <-> in_box p a \/ in_box p b) /\
  (forall c, mdrange_ok c ->
     (forall p, in_box p c <-> in_box p a \/ in_box p b) ->
     ~ (forall p, in_box p a -> in_box p b) ->
     ~ (forall p, in_box p b -> in_box p a) ->
     exists dim, mdrange_canBeMerged a b = (true, dim)).
Proof.
  intros a b HL [Hna Ha] [Hnb Hb]. split.
  - intros dim H. pose proof (mdrange_merge_ok a b dim HL Ha Hb H) as [H1 H2].
    split; [split; [|exact H1]|].
    + intros E. rewrite E in H2. destruct a; [exact (Hna eq_refl)|discriminate].
    + intros p. exact (mdrange_merge_spec a b dim p HL Ha Hb H).
  - intros c [_ Hc] HU Hab Hba. exact (canBeMerged_complete a b c HL Ha Hb Hc HU Hab Hba).
Qed.
Print Assumptions C05_box_merge.

Example C05_case :
  mdrange_canBeMerged [mkRange 0 4; mkRange 1 6] [mkRange 0 4; mkRange 6 8] = (true, 1%nat) /\
  mdrange_merge [mkRange 0 4; mkRange 1 6] [mkRange 0 4; mkRange 6 8] 1 = [mkRange 0 4; mkRange 1 8].
Proof. split; reflexivity. Qed.

(** C06. Iterating a box (the range-based for loop: [begin()], then [++] until
    [end()]) ends, visits exactly the points of the box, in strictly increasing
    lexicographic order (hence each once), and their number is [size()]. *)
Theorem C06_box_iteration : forall b : mdrange, mdrange_ok b ->
  exists l,
    (forall fuel, (Z.to_nat (mdrange_size b) <= fuel)%nat ->
       mdIt_run fuel (mdrange_begin b) (mdrange_end b) = Some l) /\
    (forall p, In p l <-> in_box p b) /\
    StronglySorted lex_lt l /\
    NoDup l /\
    Z.of_nat (length l) = mdrange_size b.
Proof.
  intros b Hb. destruct (mdrange_iteration b Hb) as [l [H1 [H2 [H3 H4]]]].
  exists l. split; [exact H1|]. split; [exact H2|]. split; [exact H3|]. split; [|exact H4].
  exact (SSorted_NoDup _ _ _ lex_lt_irrefl H3).
Qed.
Print Assumptions C06_box_iteration.

Example C06_case :
  mdIt_run 100 (mdrange_begin [mkRange 0 2; mkRange 5 8]) (mdrange_end [mkRange 0 2; mkRange 5 8])
  = Some [[0;5];[0;6];[0;7];[1;5];[1;6];[1;7]].
Proof. reflexivity. Qed.

(** C07. The comparison functions are total orders whose zero is equality. *)
Definition total_order {A} (cmp : A -> A -> Z) : Prop :=
  (forall a b, cmp a b = 0 <-> a = b) /\
  (forall a b, cmp b a = - cmp a b) /\
  (forall a b c, cmp a b <= 0 -> cmp b c <= 0 -> cmp a c <= 0).

Theorem C07_orders :
  total_order range_compare /\ total_order point_compare /\ total_order mdrange_compare.
Proof.
  split; [|split]; (split; [|split]).
  - exact range_compare_0.
  - exact range_compare_antisym.
  - exact range_compare_trans.
  - exact point_compare_0.
  - exact point_compare_antisym.
  - exact point_compare_trans.
  - exact mdrange_compare_0.
  - exact mdrange_compare_antisym.
  - exact mdrange_compare_trans.
Qed.
Print Assumptions C07_orders.

(** C07. [operator==] is equality, on boxes it is equality of the point sets,
    and on points of the same rank [compare] is the lexicographic order. *)
Theorem C07_equality :
  (forall r o, range_eq r o = true <-> r = o) /\
  (forall r o, range_ne r o = true <-> r <> o) /\
  (forall p q, point_eq p q = true <-> p = q) /\
  (forall a b, mdrange_eq a b = true <-> a = b) /\
  (forall a b, mdrange_ok a -> mdrange_ok b ->
     (mdrange_eq a b = true <-> forall p, in_box p a <-> in_box p b)) /\
  (forall p q, length p = length q -> (point_compare p q < 0 <-> lex_lt p q)) /\
  (forall r v, range_eq_value r v = true <-> forall x, in_range x r <-> x = v).
Proof.
  split; [exact range_eq_iff|]. split.
  { intros r o. split.
    - intros H E. rewrite (proj2 (range_ne_false r o) E) in H. discriminate.
    - intros H. destruct (range_ne r o) eqn:E; [reflexivity|].
      exfalso. exact (H (proj1 (range_ne_false r o) E)). }
  split; [exact point_eq_spec|]. split; [exact mdrange_eq_spec|]. split.
  { intros a b [_ Ha] [_ Hb]. rewrite mdrange_eq_spec. split.
    - intros -> p. reflexivity.
    - intros H. exact (box_ext a b Ha Hb H). }
  split; [exact point_compare_lex|].
  intros [b e] v. unfold range_eq_value, in_range; cbn. rewrite andb_true_iff, !Z.eqb_eq. split.
  - intros [-> ->] x. lia.
  - intros H. pose proof (H v). pose proof (H b). pose proof (H (e - 1)). lia.
Qed.
Print Assumptions C07_equality.

(** C07. Which order: a range is below another when it begins before, or begins
    together and ends before; [operator<] and [operator>] say the same. Boxes and
    points are ordered by rank, then lexicographically, a box by the sequence of
    its begins and ends. *)
Definition bounds (b : mdrange) : point := flat_map (fun r => [rbegin r; rend r]) b.

Theorem C07_order_shape :
  (forall r o, range_compare r o < 0 <-> rbegin r < rbegin o \/ (rbegin r = rbegin o /\ rend r < rend o)) /\
  (forall r o, range_lt r o = true <-> range_compare r o < 0) /\
  (forall r o, range_gt r o = true <-> range_compare r o > 0) /\
  (forall a b : point, length a <> length b -> (point_compare a b < 0 <-> (length a < length b)%nat)) /\
  (forall a b : mdrange, length a <> length b -> (mdrange_compare a b < 0 <-> (length a < length b)%nat)) /\
  (forall a b : mdrange, length a = length b -> (mdrange_compare a b < 0 <-> lex_lt (bounds a) (bounds b))) /\
  (forall a b, mdrange_lt a b = true <-> mdrange_compare a b < 0) /\
  (forall a b, point_lt a b = true <-> point_compare a b < 0).
Proof.
  split; [|split; [|split; [|split; [|split; [|split; [|split]]]]]].
  - intros r o. unfold range_compare.
    destruct (Z.eqb_spec (rbegin r) (rbegin o)), (Z.eqb_spec (rend r) (rend o)),
      (Z.ltb_spec (rend r) (rend o)), (Z.ltb_spec (rbegin r) (rbegin o)); lia.
  - intros r o. unfold range_lt, range_compare.
    destruct (Z.eqb_spec (rbegin r) (rbegin o)), (Z.eqb_spec (rend r) (rend o)),
      (Z.ltb_spec (rend r) (rend o)), (Z.ltb_spec (rbegin r) (rbegin o)); lia.
  - intros r o. unfold range_gt, range_compare. rewrite !Z.gtb_ltb.
    destruct (Z.eqb_spec (rbegin r) (rbegin o)), (Z.eqb_spec (rend r) (rend o)),
      (Z.ltb_spec (rend r) (rend o)), (Z.ltb_spec (rbegin r) (rbegin o)),
      (Z.ltb_spec (rend o) (rend r)), (Z.ltb_spec (rbegin o) (rbegin r)); lia.
  - intros a b H. unfold point_compare.
    destruct (Nat.ltb_spec (length a) (length b)), (Nat.ltb_spec (length b) (length a)); lia.
  - intros a b H. unfold mdrange_compare. destruct (Nat.eqb_spec (length a) (length b)); [lia|]. cbn [negb].
    destruct (Nat.ltb_spec (length a) (length b)); lia.
  - intros a b H. unfold mdrange_compare. rewrite H, Nat.eqb_refl. cbn [negb].
    revert b H. induction a as [|r a IH]; intros [|s b] H; try discriminate.
    + cbn. split; [lia|]. intros L. inversion L.
    + injection H as H. cbn [mdrange_compare_loop bounds flat_map app].
      assert (L : length (bounds a) = length (bounds b)).
      { clear - H. unfold bounds. revert b H. induction a as [|x a IHa]; intros [|y b] H; try discriminate;
          [reflexivity|]. injection H as H. cbn. now rewrite (IHa b H). }
      specialize (IH b H). unfold range_compare.
      destruct (Z.eqb_spec (rbegin r) (rbegin s)) as [E1|E1].
      * rewrite E1. destruct (Z.eqb_spec (rend r) (rend s)) as [E2|E2].
        -- rewrite E2. cbn [Z.eqb negb]. rewrite IH. split; intros X.
           ++ do 2 apply lex_next. exact X.
           ++ inversion X; subst; [lia|]. inversion H1; subst; [lia|]. assumption.
        -- destruct (Z.ltb_spec (rend r) (rend s)); cbn [Z.eqb negb].
           ++ split; [|lia]. intros _. apply lex_next, lex_here; assumption.
           ++ split; [lia|]. intros X. inversion X; subst; [lia|]. inversion H2; subst; lia.
      * destruct (Z.ltb_spec (rbegin r) (rbegin s)); cbn [Z.eqb negb].
        -- split; [|lia]. intros _. apply lex_here; [assumption|]. cbn [length]. now f_equal.
        -- split; [lia|]. intros X. inversion X; subst; lia.
  - intros a b. unfold mdrange_lt. lia.
  - intros a b. unfold point_lt. lia.
Qed.
Print Assumptions C07_order_shape.

Example C07_order_case :
  range_compare (mkRange 0 3) (mkRange 0 5) < 0 /\ range_compare (mkRange 1 3) (mkRange 0 5) > 0 /\
  mdrange_compare [mkRange 7 9] [mkRange 0 1; mkRange 0 1] < 0.
Proof. vm_compute. repeat split. Qed.

(** C49. Comparing a box with a point. The full property
    [forall b p, mdrange_ok b -> (mdrange_eq_point b p = true <-> forall q, in_box q b <-> q = p)]
    is false of the code: Range::operator!=(value) is written with [&&]. *)
Theorem C49_box_equals_point_refuted : exists b p,
  mdrange_ok b /\ length p = length b /\
  mdrange_eq_point b p = true /\ ~ (forall q, in_box q b <-> q = p).
Proof.
  exists [mkRange 0 5], [0]. split; [|split; [|split]].
  - split; [discriminate|]. repeat constructor.
  - reflexivity.
  - reflexivity.
  - intros H. assert (Hc : [1] = [0]) by (apply H; repeat constructor; cbn; lia). discriminate.
Qed.
Print Assumptions C49_box_equals_point_refuted.

(** C49, what holds: a box that is exactly the point compares equal to it, and a
    box that compares equal to a point has the same rank and, in every dimension, starts
    or ends on the point. *)
Theorem C49_box_equals_point_partial : forall b p, mdrange_ok b ->
  ((forall q, in_box q b <-> q = p) -> mdrange_eq_point b p = true) /\
  (mdrange_eq_point b p = true <->
   Forall2 (fun r v => rbegin r = v \/ rend r = v + 1) b p).
Proof.
  intros b p [_ Hb]. 
  assert (HE : mdrange_eq_point b p = true <->
               Forall2 (fun r v => rbegin r = v \/ rend r = v + 1) b p).
  { clear Hb. unfold mdrange_eq_point. revert p.
    induction b as [|r b IH]; intros [|v p]; cbn; split; intros H; try discriminate;
      try (constructor; fail); try (inversion H; fail); auto.
    - specialize (IH p). destruct (Nat.eqb (length b) (length p)) eqn:E; cbn in *; [|discriminate].
      destruct (range_ne_value r v) eqn:E2; [discriminate|]. constructor; [|apply IH; exact H].
      unfold range_ne_value in E2. apply andb_false_iff in E2.
      rewrite !negb_false_iff, !Z.eqb_eq in E2. exact E2.
    - inversion H; subst. specialize (IH p). destruct IH as [_ IH]. specialize (IH H5).
      destruct (Nat.eqb (length b) (length p)) eqn:E; cbn in *; [|discriminate].
      assert (range_ne_value r v = false) as ->; [|exact IH].
      unfold range_ne_value. apply andb_false_iff. rewrite !negb_false_iff, !Z.eqb_eq. exact H3. }
  split; [|exact HE]. intros H. apply HE.
  assert (E : b = mdrange_of_point p).
  { apply box_ext; [exact Hb|apply of_point_ok|]. intros q. rewrite H, in_box_of_point. reflexivity. }
  subst b. clear. induction p; cbn; constructor; auto.
Qed.
Print Assumptions C49_box_equals_point_partial.
