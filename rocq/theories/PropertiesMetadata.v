(** Property C118: the description of a compiled model. *)

From Coq Require Import List Arith ZArith Bool String Permutation Lia.
From Verif Require Import RangeModel MDRangeModel Spec Result RTreeModel IndexSetModel IndexSetIterModel
  IndexSetSpec IndexSetHistProofs MetadataModel MetadataSpec MetadataProofs.
Import ListNotations.
Local Open Scope nat_scope.

(** ** C118. The numbers [0 .. getNumOfVariables() - 1] name the variables that
    are not reserved, each by one number; the name, the rank and the elements
    asked for with a number are those of that variable; any other number gives
    the empty name, rank 0 and the value 0. *)
Theorem C118_position : forall vs, NoDup (map v_name vs) ->
  (forall i, i < numOfVariables vs <-> exists v, nth_public vs i v) /\
  (forall v, In v vs /\ ~ reserved (v_name v) <-> exists i, nth_public vs i v) /\
  (forall i j v, nth_public vs i v -> nth_public vs j v -> i = j) /\
  (forall i v, nth_public vs i v ->
     getVariableName vs (Z.of_nat i) = v_name v /\
     getVariableRank vs (Z.of_nat i) = List.length (v_shape v) /\
     forall K (zero : K) mem idx, List.length idx = List.length (v_shape v) ->
       getVariableValue zero vs mem (Z.of_nat i) idx = mem (v_name v) idx) /\
  (forall x, (x < 0 \/ Z.of_nat (numOfVariables vs) <= x)%Z ->
     getVariableName vs x = ""%string /\ getVariableRank vs x = 0 /\
     forall K (zero : K) mem idx, getVariableValue zero vs mem x idx = zero).
Proof.
  intros vs ND. split; [apply public_lt|]. split; [apply public_in|].
  split; [intros i j v H1 H2; eapply public_inj; eauto|]. split.
  - intros i v H. split; [|split].
    + unfold getVariableName. rewrite switch_enum0, names_entries. apply nth_nth_error, entries_nth, H.
    + unfold getVariableRank. rewrite switch_enum0, ranks_entries. apply nth_nth_error, (entries_nth v_rank), H.
    + intros K zero mem idx L. apply value_ok; auto.
  - intros x Hx. rewrite <- (entries_length _ v_name) in Hx. split; [|split].
    + unfold getVariableName. rewrite names_entries. now apply switch_enum_out.
    + unfold getVariableRank. rewrite ranks_entries. apply switch_enum_out. now rewrite !entries_length in *.
    + intros K zero mem idx. apply value_out. now rewrite entries_length in *.
Qed.
Print Assumptions C118_position.

(** Not every declared variable is described: the names of Modelica may begin
    with two underscores, and the compiler takes those for its own. *)
Theorem C118_names_refuted : exists vs v, NoDup (map v_name vs) /\ In v vs /\
  forall x, getVariableName vs x <> v_name v.
Proof.
  exists [mkVar "x" []; mkVar "__a" []], (mkVar "__a" []). split; [|split].
  - repeat constructor; cbn; intuition discriminate.
  - now right; left.
  - intros x. unfold getVariableName. cbn. destruct x; cbn; discriminate.
Qed.
Print Assumptions C118_names_refuted.

(** The number that getDerivative gives is the number of the derivative, or -1
    for a variable without derivative. Missing in the partial theorem: models
    where a reserved variable is declared before the derivative. *)
Theorem C118_derivative_partial : forall der vs ds, NoDup (map v_name vs) ->
  derivatives der vs = Some ds -> forall i v, nth_public vs i v ->
  (der (v_name v) = None -> getDerivative ds (Z.of_nat i) = (-1)%Z) /\
  (forall j w, der (v_name v) = Some (v_name w) -> nth_public vs j w ->
     (forall us ws, vs = us ++ w :: ws -> Forall (fun u => ~ reserved (v_name u)) us) ->
     getDerivative ds (Z.of_nat i) = Z.of_nat j).
Proof.
  intros der vs ds ND Hd i v Hv. unfold derivatives in Hd. apply derivatives_entries in Hd as ->.
  unfold getDerivative. rewrite switch_enum0.
  rewrite (nth_nth_error _ _ _ _ (entries_nth (der_entry _ der) _ _ _ Hv)). unfold der_entry. split.
  - now intros ->.
  - intros j w -> Hw Hr. destruct (public_split _ _ _ Hw) as (us & ws & E & ->).
    rewrite (num_all us (Hr us ws E)). rewrite E in ND |- *. rewrite (position_split us w ws 0 ND). reflexivity.
Qed.
Print Assumptions C118_derivative_partial.

(** A reserved variable declared before it shifts the number of the derivative:
    here the derivative of [x] is announced to be [y]. *)
Theorem C118_derivative_refuted : exists der vs ds, NoDup (map v_name vs) /\
  derivatives der vs = Some ds /\
  getVariableName vs 0 = "x"%string /\ der "x"%string = Some "der_x"%string /\
  getVariableName vs 1 = "der_x"%string /\
  getVariableName vs (getDerivative ds 0) = "y"%string.
Proof.
  exists (fun n => if String.eqb n "x" then Some "der_x"%string else None),
    [mkVar "__a" []; mkVar "x" []; mkVar "der_x" []; mkVar "y" []]. eexists.
  split; [repeat constructor; cbn; intuition discriminate|]. repeat split; vm_compute; reflexivity.
Qed.
Print Assumptions C118_derivative_refuted.

(** A caller that asks whether a variable is printable, for the number of its
    boxes and for the bounds of each finds exactly the elements that the filter
    selects, for every order in which the compiler visits its map. *)
Theorem C118_printable : forall info vs,
  (forall v t, In v vs -> info v = PSet t -> exists c, 1 <= v_rank v /\ built c (v_rank v) t) ->
  exists m0, printableMap 0 (printableIndices info vs) = Ok m0 /\
  forall m, Permutation m0 m ->
  (forall i v, nth_public vs i v ->
     match info v with
     | PBool b =>
         isPrintable (printableIndices info vs) (Z.of_nat i) = b /\
         getVariableNumOfPrintableRanges m (Z.of_nat i) = 0%Z
     | PSet t =>
         (isPrintable (printableIndices info vs) (Z.of_nat i) = true
            <-> exists p, List.length p = List.length (v_shape v) /\ holds t p) /\
         forall p, List.length p = List.length (v_shape v) ->
           (holds t p <-> exists r, (0 <= r < getVariableNumOfPrintableRanges m (Z.of_nat i))%Z /\
              in_reported_box (getVariablePrintableRangeBegin m) (getVariablePrintableRangeEnd m)
                (Z.of_nat i) r p)
     end) /\
  (forall x, (x < 0 \/ Z.of_nat (numOfVariables vs) <= x)%Z ->
     isPrintable (printableIndices info vs) x = false).
Proof.
  intros info vs H. destruct (printable_map info vs H) as (m0 & E). exists m0. split; auto.
  intros m P. split; [|intros; now apply printable_out]. intros i v Hv.
  pose proof (printable_flag info vs i v Hv) as F. destruct (info v) as [b|t] eqn:Ei.
  - split; auto. eapply (scalar_ranges info vs H m0 m); eauto.
  - split.
    + rewrite F. destruct (public_set info vs H i v t Hv Ei) as (Hr & c & Hb). destruct (is_empty t) eqn:Et; cbn.
      * split; [discriminate|]. intros (p & _ & Hp). exfalso. now apply (empty_holds t p Et).
      * split; auto. intros _. exact (nonempty_holds _ t (built_wset _ _ _ Hb) Hr Et).
    + intros p Lp. exact (array_ranges info vs H m0 m E P i v t Hv Ei p Lp).
Qed.
Print Assumptions C118_printable.

(** A model with a reserved variable in between, with an array of which the
    filter selects two boxes and another of which it selects one of them. *)
Definition case_vars := [mkVar "a" [6%Z; 6%Z]; mkVar "__t" []; mkVar "b" []; mkVar "c" [6%Z; 6%Z]].
Definition box2 (a b c d : Z) : mdrange := [mkRange a b; mkRange c d].
Example C118_case : exists ta tc m,
  is_setFromRanges isMin isMax [box2 0 2 0 6; box2 4 5 1 2] = Ok ta /\
  is_setFromRanges isMin isMax [box2 4 5 1 2] = Ok tc /\
  let info v := if String.eqb (v_name v) "a" then PSet ta
                else if String.eqb (v_name v) "c" then PSet tc else PBool true in
  built false 2 ta /\ built false 2 tc /\
  NoDup (map v_name case_vars) /\
  (exists v, nth_public case_vars 2 v /\ v_name v = "c"%string) /\
  getVariableName case_vars 2 = "c"%string /\ numOfVariables case_vars = 3 /\
  printableMap 0 (printableIndices info case_vars) = Ok m /\
  getVariableNumOfPrintableRanges m 0 = 2%Z /\ getVariableNumOfPrintableRanges m 2 = 1%Z /\
  getVariablePrintableRangeBegin m 2 0 0 = Some 4%Z /\ getVariablePrintableRangeEnd m 0 0 1 = Some 6%Z /\
  isPrintable (printableIndices info case_vars) 1 = true /\ isPrintable (printableIndices info case_vars) 3 = false.
Proof.
  destruct (is_setFromRanges isMin isMax [box2 0 2 0 6; box2 4 5 1 2]) as [ta| |] eqn:Ea;
    [|vm_compute in Ea; discriminate|vm_compute in Ea; discriminate].
  destruct (is_setFromRanges isMin isMax [box2 4 5 1 2]) as [tc| |] eqn:Ec;
    [|vm_compute in Ec; discriminate|vm_compute in Ec; discriminate].
  exists ta, tc. eexists. split; auto. split; auto. cbv zeta.
  split; [refine (built_boxes 2 _ ta _ Ea); repeat constructor; try discriminate; unfold range_ok; cbn; lia|].
  split; [refine (built_boxes 2 _ tc _ Ec); repeat constructor; try discriminate; unfold range_ok; cbn; lia|].
  split; [repeat constructor; cbn; intuition discriminate|].
  split; [exists (mkVar "c" [6%Z; 6%Z]); split; auto|].
  { apply np_next; [intros (r & Hr); discriminate|]. apply np_skip; [now exists "t"%string|].
    apply np_next; [intros (r & Hr); discriminate|]. apply np_here. intros (r & Hr). discriminate. }
  vm_compute in Ea. injection Ea as <-. vm_compute in Ec. injection Ec as <-.
  repeat split; vm_compute; reflexivity.
Qed.
Example C118_derivative_case : exists ds,
  derivatives (fun n => if String.eqb n "x" then Some "der_x"%string else None)
    [mkVar "x" []; mkVar "y" []; mkVar "der_x" []; mkVar "__rk_x" []] = Some ds /\
  getDerivative ds 0 = 2%Z /\ getDerivative ds 1 = (-1)%Z.
Proof. eexists. repeat split; vm_compute; reflexivity. Qed.
