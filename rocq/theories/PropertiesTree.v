(** Properties C18, C19 and C51: the spatial index (R-tree). *)
From Coq Require Import ZArith List Bool Lia Permutation.
From Verif Require Import RangeModel MDRangeModel Spec Result RTreeModel IndexSetModel TreeSpec
  IndexSetSpec IndexSetWitness IndexSetHistProofs TreeHistProofs.
Import ListNotations.
Local Open Scope nat_scope.

(** ** C18. All the leaves are at the same depth, every bounding box is minimum,
    the fan-outs stay within the bounds.

    Every sequence of insertions into a tree of objects is defined, stores
    exactly the inserted objects and gives a well formed tree. *)
Theorem C18_insertions : forall T (shape : T -> mdrange) (isEqual : T -> T -> bool) minE maxE rk,
  1 <= minE -> 2 * minE <= maxE ->
  forall l, Forall (fun o => box_of rk (shape o)) l ->
  exists t, fold_res (rt_insert T shape (fun l => l) minE maxE) l (rt_empty T) = Ok t
    /\ Permutation l (stored T t)
    /\ well_formed T shape (between 1 maxE) (between minE maxE) t.
Proof. exact insertions_total. Qed.
Print Assumptions C18_insertions.

(** Every history of insertions and removals, as long as it is defined; the
    insertions are. Missing: removals are not always defined
    ([C18_removal_refuted]). *)
Theorem C18_histories_partial : forall T (shape : T -> mdrange) (isEqual : T -> T -> bool) minE maxE rk,
  1 <= minE -> 2 * minE <= maxE ->
  forall t, grown T shape isEqual minE maxE rk t ->
  well_formed T shape (between 1 maxE) (between minE maxE) t
  /\ forall o, box_of rk (shape o) ->
       exists t', rt_insert T shape (fun l => l) minE maxE t o = Ok t'.
Proof.
  intros T shape isEqual minE maxE rk H1 H2 t H. split.
  - exact (grown_well_formed T shape isEqual minE maxE rk H1 H2 t H).
  - intros o. exact (insert_defined T shape isEqual minE maxE rk H1 H2 t o H).
Qed.
Print Assumptions C18_histories_partial.

(** With bulk loads too. Missing: the lower bound on the fan-out, which bulk
    loads break ([C18_bulk_refuted]). *)
Theorem C18_bulk_partial : forall T (shape : T -> mdrange) (isEqual : T -> T -> bool) minE maxE rk,
  1 <= minE -> 2 * minE <= maxE ->
  forall t, reach T shape isEqual minE maxE rk t ->
  well_formed T shape (between 1 maxE) (between 1 maxE) t.
Proof. exact reach_well_formed. Qed.
Print Assumptions C18_bulk_partial.

(** Index sets built by additions. *)
Theorem C18_index_set_additions_partial : forall rk l t, Forall (box_of rk) l ->
  run is_empty_set (map Add l) = Ok t ->
  well_formed mdrange (fun b => b) (between 1 isMax) (between isMin isMax) t.
Proof. exact additions_well_formed. Qed.
Print Assumptions C18_index_set_additions_partial.

(** All the index sets. Missing: the bounds on the fan-out
    ([C18_index_set_removal_refuted]). *)
Theorem C18_index_sets_partial : forall c rk t, built c rk t ->
  well_formed mdrange (fun b => b) (fun m => 1 <= m) (fun m => 1 <= m) t.
Proof. exact built_well_formed. Qed.
Print Assumptions C18_index_sets_partial.

Definition unit1 (x : nat) : mdrange := [mkRange (Z.of_nat x) (Z.of_nat x + 1)].

(** The bulk load of 68 objects creates a node with a single child. *)
Theorem C18_bulk_refuted : exists l t, Forall (box_of 1) l /\ disj l /\
  setFromObjects mdrange (fun b => b) 4 16 (rt_empty mdrange) l = Ok t /\
  ~ well_formed mdrange (fun b => b) (between 1 16) (between 4 16) t.
Proof.
  exists (map unit1 (seq 0 68)). eexists. split; [|split; [|split; [vm_compute; reflexivity|]]].
  - apply Forall_map, Forall_forall. intros x _. split; auto. split; [discriminate|].
    repeat constructor. unfold range_ok; cbn; lia.
  - assert (G : forall n a, disj (map unit1 (seq a n))).
    { induction n as [|n IH]; intros a; cbn; constructor; auto.
      - apply Forall_map, Forall_forall. intros y Hy p [H1 H2]. apply in_seq in Hy.
        inversion H1 as [|x r p' b' H3 H4]; subst. inversion H2 as [|x' r' p'' b'' H5 H6]; subst.
        unfold in_range in *; cbn in *; lia.
      - apply IH. }
    apply G.
  - intros H. apply well_formed_fan in H. vm_compute in H. discriminate.
Qed.
Print Assumptions C18_bulk_refuted.

(** Removing an object from a well formed tree uses a freed node: the tree is
    bulk loaded with 64 objects and receives 180 other ones. *)
Theorem C18_removal_refuted : exists l l' t o,
  Forall (box_of 1) (l ++ l') /\ In o l /\
  (t <- setFromObjects mdrange (fun b => b) 4 16 (rt_empty mdrange) l ;;
   fold_res (rt_insert mdrange (fun b => b) (fun l => l) 4 16) l' t) = Ok t /\
  rt_isValid mdrange (fun b => b) 4 16 t = true /\
  rt_remove mdrange (fun b => b) mdrange_eq (fun l => l) 4 16 t o = Bad.
Proof.
  exists (map mdrange_of_point spread), (map mdrange_of_point filler). eexists.
  exists (mdrange_of_point [810%Z]). split; [|split; [|split; [vm_compute; reflexivity|]]].
  - assert (G : forall x, box_of 1 (mdrange_of_point [x])).
    { intros x. split; auto. split; [discriminate|]. repeat constructor. unfold range_ok; cbn; lia. }
    vm_compute. repeat constructor; try discriminate.
  - vm_compute. do 33 right. left. reflexivity.
  - split; vm_compute; reflexivity.
Qed.
Print Assumptions C18_removal_refuted.

(** An index set of 16 boxes, valid, and a removal that leaves a node of more
    than 16 elements. *)
Definition box3 (a b c d e f : Z) : mdrange := [mkRange a b; mkRange c d; mkRange e f].
Definition slabs : list mdrange :=
  map (fun i => box3 0 10 0 10 (2 * Z.of_nat i) (2 * Z.of_nat i + 1)) (seq 0 16).
Theorem C18_index_set_removal_refuted : exists t t', built true 3 t /\
  is_remove isMin isMax t (box3 4 6 4 6 0 32) = Ok t' /\
  well_formed mdrange (fun b => b) (between 1 isMax) (between isMin isMax) t /\
  ~ well_formed mdrange (fun b => b) (between 1 isMax) (between isMin isMax) t'.
Proof.
  assert (F : Forall (box_of 3) slabs).
  { apply Forall_map, Forall_forall. intros x _. split; auto. split; [discriminate|].
    repeat constructor; unfold range_ok; cbn; lia. }
  destruct (run is_empty_set (map Add slabs)) as [t| |] eqn:Et;
    [|vm_compute in Et; discriminate|vm_compute in Et; discriminate].
  exists t. eexists. split; [|split; [|split]].
  - refine (run_built 3 (map Add slabs) t _ Et). apply Forall_map. exact F.
  - vm_compute in Et. injection Et as <-. vm_compute. reflexivity.
  - exact (additions_well_formed 3 slabs t F Et).
  - intros H. apply well_formed_fan in H. vm_compute in H. discriminate.
Qed.
Print Assumptions C18_index_set_removal_refuted.

(** A history of insertions and removals that reaches two levels. *)
Example C18_case : exists t, grown mdrange (fun b => b) mdrange_eq 4 16 1 t /\
  length (stored mdrange t) = 38 /\ (exists r, rt_root mdrange t = Some r /\ nchildren mdrange r <> []).
Proof.
  destruct (fold_res (rt_insert mdrange (fun b => b) (fun l => l) 4 16)
              (map unit1 (map (fun x => 3 * x mod 101) (seq 0 40))) (rt_empty mdrange)) as [t| |] eqn:E;
    [|vm_compute in E; discriminate|vm_compute in E; discriminate].
  assert (G : forall l t t', Forall (box_of 1) l -> grown mdrange (fun b => b) mdrange_eq 4 16 1 t ->
     fold_res (rt_insert mdrange (fun b => b) (fun l => l) 4 16) l t = Ok t' ->
     grown mdrange (fun b => b) mdrange_eq 4 16 1 t').
  { induction l as [|o l IH]; intros u u' F H H'; cbn in H'.
    - injection H' as <-. auto.
    - inversion F; subst. apply bind_ok in H' as (v & K1 & K2). eapply IH; [| |exact K2]; auto.
      eapply grown_insert; eauto. }
  assert (U : forall x, box_of 1 (unit1 x)).
  { intros x. split; auto. split; [discriminate|]. repeat constructor. unfold range_ok; cbn; lia. }
  assert (K : grown mdrange (fun b => b) mdrange_eq 4 16 1 t).
  { eapply G; [| |exact E]; [|constructor]. apply Forall_map, Forall_forall. intros x _. apply U. }
  destruct (rt_remove mdrange (fun b => b) mdrange_eq (fun l => l) 4 16 t (unit1 3)) as [u| |] eqn:E1;
    [|vm_compute in E; injection E as <-; vm_compute in E1; discriminate
     |vm_compute in E; injection E as <-; vm_compute in E1; discriminate].
  destruct (rt_remove mdrange (fun b => b) mdrange_eq (fun l => l) 4 16 u (unit1 16)) as [v| |] eqn:E2;
    [|vm_compute in E; injection E as <-; vm_compute in E1; injection E1 as <-; vm_compute in E2; discriminate
     |vm_compute in E; injection E as <-; vm_compute in E1; injection E1 as <-; vm_compute in E2; discriminate].
  exists v. split.
  - eapply grown_remove; [| |exact E2]; auto. eapply grown_remove; [| |exact E1]; auto.
  - vm_compute in E. injection E as <-. vm_compute in E1. injection E1 as <-.
    vm_compute in E2. injection E2 as <-. split; [reflexivity|].
    eexists. split; [reflexivity|]. discriminate.
Qed.

(** ** C19. The search visits each stored object that overlaps the box, once, and
    no other object. *)
Theorem C19_search : forall T (shape : T -> mdrange) (isEqual : T -> T -> bool) minE maxE rk,
  1 <= minE -> 2 * minE <= maxE ->
  forall t b, reach T shape isEqual minE maxE rk t -> box_of rk b ->
  exists l rest, walkOverlappingObjects T shape t b = Ok l
    /\ Permutation (stored T t) (l ++ rest)
    /\ Forall (fun o => exists p, in_box p (shape o) /\ in_box p b) l
    /\ Forall (fun o => forall p, ~ (in_box p (shape o) /\ in_box p b)) rest.
Proof. exact search_exact. Qed.
Print Assumptions C19_search.

Example C19_case : exists t,
  setFromObjects mdrange (fun b => b) 4 16 (rt_empty mdrange) (map unit1 (seq 0 68)) = Ok t /\
  walkOverlappingObjects mdrange (fun b => b) t [mkRange 10 13] = Ok [unit1 10; unit1 11; unit1 12].
Proof. eexists. split; vm_compute; reflexivity. Qed.

(** ** C51. An insertion stores exactly one more object; a removal removes exactly
    the objects equal to its argument. *)
Theorem C51_insert : forall T (shape : T -> mdrange) (isEqual : T -> T -> bool) minE maxE rk,
  1 <= minE -> 2 * minE <= maxE ->
  forall t o t', reach T shape isEqual minE maxE rk t -> box_of rk (shape o) ->
  rt_insert T shape (fun l => l) minE maxE t o = Ok t' ->
  Permutation (o :: stored T t) (stored T t').
Proof. exact insert_exact. Qed.
Print Assumptions C51_insert.

(** Nothing else is lost. *)
Theorem C51_remove_partial : forall T (shape : T -> mdrange) (isEqual : T -> T -> bool) minE maxE rk,
  1 <= minE -> 2 * minE <= maxE ->
  forall t o t', reach T shape isEqual minE maxE rk t ->
  rt_remove T shape isEqual (fun l => l) minE maxE t o = Ok t' ->
  exists gone, Permutation (stored T t) (stored T t' ++ gone)
    /\ Forall (fun x => isEqual o x = true) gone.
Proof. exact remove_only_equal. Qed.
Print Assumptions C51_remove_partial.

(** An object stored once is removed. Missing: an object stored several times,
    and the removals that are undefined ([C18_removal_refuted]). *)
Theorem C51_remove_once_partial : forall T (shape : T -> mdrange) (isEqual : T -> T -> bool) minE maxE rk,
  1 <= minE -> 2 * minE <= maxE ->
  forall t o t', reach T shape isEqual minE maxE rk t -> box_of rk (shape o) ->
  (forall x, isEqual o x = true -> shape x = shape o) ->
  length (filter (isEqual o) (stored T t)) <= 1 ->
  rt_remove T shape isEqual (fun l => l) minE maxE t o = Ok t' ->
  Permutation (stored T t) (stored T t' ++ filter (isEqual o) (stored T t))
  /\ Forall (fun x => isEqual o x = false) (stored T t').
Proof. exact remove_once. Qed.
Print Assumptions C51_remove_once_partial.

Example C51_case : exists t t',
  setFromObjects mdrange (fun b => b) 4 16 (rt_empty mdrange) (map unit1 (seq 0 68)) = Ok t /\
  rt_remove mdrange (fun b => b) mdrange_eq (fun l => l) 4 16 t (unit1 30) = Ok t' /\
  length (stored mdrange t') = 67 /\ length (filter (mdrange_eq (unit1 30)) (stored mdrange t)) = 1.
Proof. do 2 eexists. split; [vm_compute; reflexivity|]. split; [vm_compute; reflexivity|].
  split; vm_compute; reflexivity. Qed.
