(** C46, C56, C57: constant ranges and index arithmetic of subscripts. *)
From Coq Require Import ZArith List Bool Lia ZifyBool.
From Verif Require Import RangeModel MDRangeModel Result BoxSetModel BoxSetProofs AccessModel Spec
  SubscriptModel SubscriptSpec SubscriptProofs.
Import ListNotations.
Open Scope Z_scope.

(** ** C46: constant folding of ranges *)

(** Whenever the folding of range + v and range - v is defined (no int64
    overflow) it denotes exactly the shifted values. *)
Theorem C46_fold : forall (r : irange) (v : Z),
  (forall r', add_fold r v = Ok r' -> forall x, range_value r' x <-> exists y, range_value r y /\ x = y + v)
  /\ (forall r', sub_fold r v = Ok r' -> forall x, range_value r' x <-> exists y, range_value r y /\ x = y - v)
  /\ (- 2 ^ 63 <= ilower r + v < 2 ^ 63 -> - 2 ^ 63 <= iupper r + v < 2 ^ 63 -> exists r', add_fold r v = Ok r')
  /\ (- 2 ^ 63 <= ilower r - v < 2 ^ 63 -> - 2 ^ 63 <= iupper r - v < 2 ^ 63 -> exists r', sub_fold r v = Ok r').
Proof.
  intros r v. split; [|split; [|split]].
  - intros r' H x. rewrite (add_fold_value r v r' H x). split.
    + intros V. exists (x - v). split; [exact V|lia].
    + intros (y & V & ->). now replace (y + v - v) with y by lia.
  - intros r' H x. rewrite (sub_fold_value r v r' H x). split.
    + intros V. exists (x + v). split; [exact V|lia].
    + intros (y & V & ->). now replace (y - v + v) with y by lia.
  - intros A B. unfold add_fold. rewrite !i64_in by assumption. cbn. eauto.
  - intros A B. unfold sub_fold. rewrite !i64_in by assumption. cbn. eauto.
Qed.
Print Assumptions C46_fold.
Example C46_fold_example :
  add_fold (mkIRange 2 9 3) 5 = Ok (mkIRange 7 14 3) /\ sub_fold (mkIRange 9 2 (-3)) 5 = Ok (mkIRange 4 (-3) (-3)).
Proof. split; reflexivity. Qed.

(** Full statement: the reported size of a range is its number of values. It is
    proved for the ranges that have a value. *)
Theorem C46_size_partial : forall (r : irange) (n : Z), num_elements r = Ok n -> (exists v, range_value r v) ->
  exists l, NoDup l /\ (forall v, In v l <-> range_value r v) /\ n = Z.of_nat (length l).
Proof. exact num_elements_count. Qed.
Print Assumptions C46_size_partial.
Example C46_size_example : num_elements (mkIRange 9 2 (-3)) = Ok 3 /\ range_value (mkIRange 9 2 (-3)) 3.
Proof. split; [reflexivity|]. exists 2. cbn [istep ilower iupper]. lia. Qed.

(** An empty range: the reported size is negative, or positive. *)
Theorem C46_size_refuted :
  (exists r n, num_elements r = Ok n /\ (forall v, ~ range_value r v) /\ n < 0)
  /\ (exists r n, num_elements r = Ok n /\ (forall v, ~ range_value r v) /\ 0 < n).
Proof.
  split.
  - exists (mkIRange 5 3 1), (-1). split; [reflexivity|]. split; [|lia]. intros v (k & H & E & C). cbn [istep ilower iupper] in *. lia.
  - exists (mkIRange 1 0 2), 1. split; [reflexivity|]. split; [|lia]. intros v (k & H & E & C). cbn [istep ilower iupper] in *. lia.
Qed.
Print Assumptions C46_size_refuted.

(** The loop generated for a reduction takes exactly the values of the range,
    each once: for every range with a value, and for every range of step 1 or
    -1. *)
Theorem C46_reduction_partial : forall (r : irange) (l : list Z), reduction_values r = Ok l ->
  (exists v, range_value r v) \/ istep r = 1 \/ istep r = -1 ->
  NoDup l /\ forall v, In v l <-> range_value r v.
Proof.
  intros r l H [D|D].
  - now apply reduction_exact.
  - split; [|now apply reduction_unit_empty].
    unfold reduction_values in H. destruct (num_elements r); cbn [bind] in H; try discriminate. injection H as <-.
    apply parallel_nodup. destruct (0 <=? istep r); lia.
Qed.
Print Assumptions C46_reduction_partial.
Example C46_reduction_example : reduction_values (mkIRange 9 2 (-3)) = Ok [3; 6; 9].
Proof. reflexivity. Qed.

(** An empty range of step 2 whose loop runs once. *)
Theorem C46_reduction_refuted : exists r l, reduction_values r = Ok l /\ (forall v, ~ range_value r v) /\ l <> [].
Proof.
  exists (mkIRange 1 0 2), [1]. split; [reflexivity|]. split; [|discriminate]. intros v (k & H & E & C). cbn [istep ilower iupper] in *. lia.
Qed.
Print Assumptions C46_reduction_refuted.

(** The induction space of a reduction over one range has exactly its values;
    over two ranges it is empty. *)
Theorem C46_space_partial : forall (r : irange) (s : bset) (ds : list Z), reduction_space [r] = Ok (s, ds) ->
  ds = [0] /\ forall q, in_boxes q s <-> exists v, q = [v] /\ range_value r v.
Proof.
  intros r s ds H. unfold reduction_space in H. cbn [reduction_space_loop] in H.
  apply bind_ok in H as (u & A & H). apply assert_ok_inv in A. unfold mk_range in H.
  destruct (ilower r <? iupper r + 1) eqn:E; cbn in H; [|discriminate]. injection H as <- <-.
  split; [reflexivity|]. intros q. split.
  - intros (b & [<-|[]] & I). inversion I as [|v x q' l V Q]; subst. inversion Q; subst. exists v. split; auto.
    unfold in_range in V. cbn in V. exists (v - ilower r). lia.
  - intros (v & -> & k & K & -> & C). exists [mkRange (ilower r) (iupper r + 1)]. split; [now left|].
    repeat constructor; cbn; lia.
Qed.
Print Assumptions C46_space_partial.
Example C46_space_example : reduction_space [mkIRange 2 4 1] = Ok ([[mkRange 2 5]], [0]).
Proof. reflexivity. Qed.
Theorem C46_space_refuted : exists r r', (exists v, range_value r v) /\ (exists v, range_value r' v) /\
  exists ds, reduction_space [r; r'] = Ok ([], ds).
Proof.
  exists (mkIRange 1 3 1), (mkIRange 1 2 1). split; [exists 1, 0; cbn; lia|]. split; [exists 1, 0; cbn; lia|].
  eexists. reflexivity.
Qed.
Print Assumptions C46_space_refuted.

(** ** C56: code materialised for affine expressions *)

(** When operations are created for an affine expression, they compute its
    value, at every point where it is defined and no floor division has a
    negative dividend. *)
Theorem C56_materialize_partial : forall (p : point) (e : aexpr) (s : sub) (v : Z),
  materialize e = Some s -> aeval p e = Some v -> dividends_ok p e ->
  forall w, sub_value p s w <-> w = v.
Proof.
  intros p e s v M V D w. destruct (materialized_value p e s v M D V) as [P S]. split.
  - intros W. exact (plain_value_unique p s P w v W S).
  - intros ->. exact S.
Qed.
Print Assumptions C56_materialize_partial.
Example C56_example :
  let e := AAdd (AFloorDiv (ADim 0) (AConst 2)) (AMul (ADim 1) (AConst (-3))) in
  materialize e = Some (SAdd (SDiv (SInd 0) (SConst 2)) (SMul (SInd 1) (SConst (-3))))
  /\ aeval [7; 2] e = Some (-3) /\ dividends_ok [7; 2] e.
Proof. cbn. repeat split; auto; intros u [= <-]; lia. Qed.

(** A negative dividend: affine floor division and the truncating division of
    the generated code differ. *)
Theorem C56_materialize_refuted : exists p e s v w,
  materialize e = Some s /\ aeval p e = Some v /\ sub_value p s w /\ w <> v.
Proof.
  exists [-3], (AFloorDiv (ADim 0) (AConst 2)), (SDiv (SInd 0) (SConst 2)), (-2), (-1).
  split; [reflexivity|]. split; [reflexivity|]. split; [|lia].
  change (-1) with (Z.quot (-3) 2). repeat constructor. lia.
Qed.
Print Assumptions C56_materialize_refuted.

(** ** C57: access functions extracted from subscripts *)

(** Full statement: the dimension access extracted from a subscript reaches, from
    every iteration, exactly the elements the subscript denotes. Proved for the
    subscripts without ranges; with a range the last element is lost. *)
Theorem C57_extracted_partial : forall (p : point) (cur : spoints) (e : sub) (v : Z),
  plain e -> sub_value p e v ->
  exists a s, getDimensionAccess e = Ok (Some a) /\ da_map p cur a = Ok s
    /\ forall q, in_boxes q s <-> exists w, q = [w] /\ sub_value p e w.
Proof.
  intros p cur e v P H. destruct (access_extracted p cur e v P H) as (a & A & S).
  exists a, [mdrange_of_point [v]]. split; [exact A|]. split; [exact S|]. intros q. split.
  - intros (b & [<-|[]] & I). apply of_point_in in I as ->. exists v. auto.
  - intros (w & -> & W). rewrite (plain_value_unique p e P w v W H).
    exists (mdrange_of_point [v]). split; [now left|]. now apply of_point_in.
Qed.
Print Assumptions C57_extracted_partial.
Example C57_example :
  let e := SDiv (SSub (SMul (SInd 1) (SConst 3)) (SNeg (SInd 0))) (SConst 2) in
  plain e /\ sub_value [1; 4] e 6.
Proof.
  cbn. split; [tauto|]. change 6 with (Z.quot (4 * 3 - - (1)) 2). repeat constructor. lia.
Qed.
Theorem C57_range_refuted : exists e a p s v,
  getDimensionAccess e = Ok (Some a) /\ da_map p [] a = Ok s
  /\ sub_value p e v /\ ~ in_boxes [v] s.
Proof.
  exists (SRange (mkIRange 1 3 1)), (DRange (mkRange 1 3)), [0], [[mkRange 1 3]], 3.
  split; [reflexivity|]. split; [reflexivity|]. split; [constructor; exists 2; cbn [istep ilower iupper]; lia|].
  intros (b & [<-|[]] & I). inversion I as [|x y l l' X]; subst. unfold in_range in X. cbn in X. lia.
Qed.
Print Assumptions C57_range_refuted.
(** A range of one element cannot even be represented. *)
Theorem C57_single_refuted : exists p e v, sub_value p e v /\ getDimensionAccess e = Bad.
Proof. exists [0], (SRange (mkIRange 3 3 1)), 3. split; [constructor; exists 0; cbn [istep ilower iupper]; lia|reflexivity]. Qed.
Print Assumptions C57_single_refuted.
