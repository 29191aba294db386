(** C36: the generated loops. *)
From Coq Require Import ZArith List Bool Lia Sorted.
From Verif Require Import RangeModel MDRangeModel Spec Result BoxSetModel BoxSetProofs LoopModel LoopSpec LoopProofs.
Import ListNotations.
Open Scope Z_scope.

(** Full statement: for every schedule and every index set, the generated code
    executes each iteration of the set exactly once, in increasing order for the
    forward dimensions and in decreasing order for the backward ones. It is false
    with a backward dimension, and for the order between the ranges of the set
    (refutations below). Proved: without backward dimensions each iteration is
    executed exactly once, and in increasing order within each range. *)
Theorem C36_forward_partial : forall (ds : list direction) (indices : bset),
  indices <> [] -> bs_of (length ds) indices -> disj indices ->
  Forall (fun d => d = DirAny \/ d = DirForward) ds ->
  exists l ls, equation_call ds indices = Ok l
    /\ NoDup l /\ (forall p, In p l <-> in_boxes p indices)
    /\ l = concat ls
    /\ Forall2 (fun b lb => (forall p, In p lb <-> in_box p b) /\ StronglySorted (iteration_before ds) lb) indices ls.
Proof.
  intros ds indices NE B D F.
  assert (F1 : Forall (fun d => d <> DirUnknown) ds) by (eapply Forall_impl; [|exact F]; intros d [->| ->]; discriminate).
  assert (F2 : Forall (fun d => d <> DirBackward) ds) by (eapply Forall_impl; [|exact F]; intros d [->| ->]; discriminate).
  exists (concat (map (nest_values ds) indices)), (map (nest_values ds) indices).
  assert (L : forall b, In b indices -> length ds = length b).
  { intros b IB. unfold bs_of in B. rewrite Forall_forall in B. symmetry. apply (B b IB). }
  split; [now apply call_spec|]. split; [now apply concat_nodup|]. split; [|split; [reflexivity|]].
  - intros p. rewrite in_concat. split.
    + intros (lb & LB & P). apply in_map_iff in LB as (b & <- & IB). exists b. split; auto.
      apply (forward_in ds); auto.
    + intros (b & IB & P). exists (nest_values ds b). split; [now apply in_map|]. apply forward_in; auto.
  - clear NE B D. induction indices as [|b s IH]; constructor.
    + split; [intros p; apply forward_in; auto; apply L; now left|apply nest_sorted].
    + apply IH. intros c C. apply L. now right.
Qed.
Print Assumptions C36_forward_partial.

Definition fw2 : bset := [[mkRange 0 2; mkRange 3 5]; [mkRange 4 5; mkRange 0 2]].
Example C36_example :
  bs_of 2 fw2 /\ disj fw2 /\
  equation_call [DirForward; DirAny] fw2 = Ok [[0; 3]; [0; 4]; [1; 3]; [1; 4]; [4; 0]; [4; 1]].
Proof.
  repeat split; repeat constructor; cbn; try discriminate.
  intros p [H1 H2]. inversion H1 as [|x r p' l X P]; subst. inversion H2 as [|x' r' p'' l' X' P']; subst.
  unfold in_range in *; cbn in *; lia.
Qed.

(** What is executed with backward dimensions: the iterations of a box moved by
    one along each of them, in the right order. *)
Theorem C36_backward_partial : forall (ds : list direction) (b : mdrange),
  box_of (length ds) b -> Forall (fun d => d <> DirUnknown) ds ->
  exists l, equation_call ds [b] = Ok l
    /\ NoDup l /\ StronglySorted (iteration_before ds) l
    /\ forall p, In p l <-> length p = length b /\
         forall k d r v, nth_error ds k = Some d -> nth_error b k = Some r -> nth_error p k = Some v ->
           executed_value d r v.
Proof.
  intros ds b B U. exists (nest_values ds b). split.
  - rewrite (call_spec ds [b]); [cbn; now rewrite app_nil_r|discriminate|auto|repeat constructor; apply B].
  - split; [eapply sorted_nodup, nest_sorted|]. split; [apply nest_sorted|].
    intros p. apply nest_in. symmetry. apply B.
Qed.
Print Assumptions C36_backward_partial.

(** A backward dimension: an iteration outside the range is executed, and the
    first one of the range is not. *)
Theorem C36_backward_refuted : exists (ds : list direction) (b : mdrange) (l : list point) (p q : point),
  box_of (length ds) b /\ equation_call ds [b] = Ok l
  /\ In p l /\ ~ in_box p b /\ in_box q b /\ ~ In q l.
Proof.
  exists [DirBackward], [mkRange 0 3], [[3]; [2]; [1]], [3], [0].
  split; [repeat constructor; discriminate|]. split; [reflexivity|]. split; [cbn; auto|].
  split; [intros H; inversion H; subst; unfold in_range in *; cbn in *; lia|].
  split; [constructor; [unfold in_range; cbn; lia|constructor]|].
  cbn. intros [H|[H|[H|[]]]]; discriminate.
Qed.
Print Assumptions C36_backward_refuted.

(** The ranges of a set are always executed in the order in which they are
    stored: an iteration of a later range comes after those of an earlier one
    also along a backward dimension. *)
Theorem C36_ranges_refuted : exists (ds : list direction) (indices : bset) (l : list point),
  bs_of (length ds) indices /\ disj indices /\ Forall (fun d => d <> DirUnknown) ds
  /\ equation_call ds indices = Ok l /\ ~ StronglySorted (iteration_before ds) l.
Proof.
  exists [DirBackward], [[mkRange 0 2]; [mkRange 4 6]], [[2]; [1]; [6]; [5]].
  split; [repeat constructor; discriminate|]. split.
  { repeat constructor. intros p [H1 H2]. inversion H1; subst. inversion H2; subst. unfold in_range in *; cbn in *; lia. }
  split; [repeat constructor; discriminate|]. split; [reflexivity|].
  intros H. inversion H as [|x l SS F]; subst. inversion F as [|y l' F1 F2]; subst. inversion F2 as [|z l'' F3 F4]; subst.
  inversion F3 as [d ds x y p q V|]; subst; cbn in V; lia.
Qed.
Print Assumptions C36_ranges_refuted.
