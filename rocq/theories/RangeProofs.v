(** Lemmas on ranges. *)
From Coq Require Import ZArith List Bool Lia ZifyBool.
From Verif Require Import RangeModel MDRangeModel Spec.
Import ListNotations.
Open Scope Z_scope.

Ltac range_unfold :=
  unfold range_subtract, range_merge, range_intersect, range_canBeMerged,
    range_contains, range_overlaps, range_contains_value, range_eq, range_ne,
    range_eq_value, range_ne_value, range_lt, range_gt, range_compare, range_size,
    in_range, range_ok in *.

Ltac case_ifs :=
  repeat match goal with
  | |- context [if ?c then _ else _] => let E := fresh "E" in destruct c eqn:E
  | H : context [if ?c then _ else _] |- _ => let E := fresh "E" in destruct c eqn:E
  end.

Lemma range_contains_value_spec : forall r v,
  range_contains_value r v = true <-> in_range v r.
Proof. intros; range_unfold; lia. Qed.

Lemma range_contains_spec : forall r o, range_ok o ->
  (range_contains r o = true <-> forall v, in_range v o -> in_range v r).
Proof.
  intros r o Ho; range_unfold; split.
  - intros H v Hv; lia.
  - intros H. pose proof (H (rbegin o)). pose proof (H (rend o - 1)). lia.
Qed.

Lemma range_overlaps_spec : forall r o, range_ok r -> range_ok o ->
  (range_overlaps r o = true <-> exists v, in_range v r /\ in_range v o).
Proof.
  intros r o Hr Ho; range_unfold; split.
  - intros H. exists (Z.max (rbegin r) (rbegin o)). lia.
  - intros [v Hv]. lia.
Qed.

Lemma range_overlaps_sym : forall r o, range_overlaps r o = range_overlaps o r.
Proof. intros; range_unfold; lia. Qed.

Lemma range_intersect_spec : forall r o v,
  range_overlaps r o = true ->
  (in_range v (range_intersect r o) <-> in_range v r /\ in_range v o).
Proof. intros r o v H; range_unfold; case_ifs; cbn; lia. Qed.

Lemma range_intersect_ok : forall r o,
  range_ok r -> range_ok o -> range_overlaps r o = true ->
  range_ok (range_intersect r o).
Proof. intros r o Hr Ho H; range_unfold; case_ifs; cbn; lia. Qed.

Lemma range_merge_spec : forall r o v,
  range_ok r -> range_ok o -> range_canBeMerged r o = true ->
  (in_range v (range_merge r o) <-> in_range v r \/ in_range v o).
Proof. intros r o v Hr Ho H; range_unfold; case_ifs; cbn; lia. Qed.

Lemma range_merge_ok : forall r o,
  range_ok r -> range_ok o -> range_canBeMerged r o = true ->
  range_ok (range_merge r o).
Proof. intros r o Hr Ho H; range_unfold; case_ifs; cbn; lia. Qed.

Lemma range_not_mergeable : forall r o u,
  range_ok r -> range_ok o -> range_canBeMerged r o = false ->
  ~ (forall v, in_range v u <-> in_range v r \/ in_range v o).
Proof.
  intros r o u Hr Ho H Hu. range_unfold.
  pose proof (Hu (rend r)). pose proof (Hu (rend o)).
  pose proof (Hu (rbegin r)). pose proof (Hu (rbegin o)). lia.
Qed.

Lemma range_subtract_in : forall r o v,
  range_ok r -> range_ok o ->
  ((exists s, In s (range_subtract r o) /\ in_range v s) <->
   (in_range v r /\ ~ in_range v o)).
Proof.
  intros r o v Hr Ho; range_unfold; case_ifs; cbn; split;
    intros H;
    repeat match goal with
    | H : exists _, _ |- _ => destruct H
    | H : _ /\ _ |- _ => destruct H
    | H : _ \/ _ |- _ => destruct H
    | H : mkRange _ _ = _ |- _ => subst
    | H : False |- _ => contradiction
    end; subst; cbn in *; try lia;
  try (eexists; split; [left; reflexivity|cbn; lia]).
  destruct (Z_lt_ge_dec v (rbegin o)).
  - eexists; split; [left; reflexivity|cbn; lia].
  - eexists; split; [right; left; reflexivity|cbn; lia].
Qed.

Lemma range_subtract_ok : forall r o s,
  range_ok r -> range_ok o -> In s (range_subtract r o) -> range_ok s.
Proof.
  intros r o s Hr Ho; range_unfold; case_ifs; cbn; intros H;
    repeat match goal with
    | H : _ \/ _ |- _ => destruct H
    end; subst; cbn; try lia; try contradiction.
Qed.

Lemma range_subtract_ordered : forall r o, range_ok o ->
  ForallOrdPairs (fun a b => rend a <= rbegin b) (range_subtract r o).
Proof.
  intros r o Ho; range_unfold; case_ifs; cbn;
    repeat constructor; cbn; lia.
Qed.

Lemma range_eq_iff : forall r o, range_eq r o = true <-> r = o.
Proof.
  intros [b e] [b' e']; unfold range_eq; cbn. split.
  - intros H. f_equal; lia.
  - intros H; inversion H; lia.
Qed.

Lemma range_ne_false : forall r o, range_ne r o = false <-> r = o.
Proof.
  intros [b e] [b' e']; unfold range_ne; cbn. split.
  - intros H. f_equal; lia.
  - intros H; inversion H; lia.
Qed.

Lemma range_ext : forall r o, range_ok r -> range_ok o ->
  (forall v, in_range v r <-> in_range v o) -> r = o.
Proof.
  intros [b e] [b' e'] Hr Ho H. range_unfold; cbn in *.
  pose proof (H b). pose proof (H b'). pose proof (H (e - 1)). pose proof (H (e' - 1)).
  f_equal; lia.
Qed.

(** Orders. *)
Lemma range_compare_0 : forall r o, range_compare r o = 0 <-> r = o.
Proof.
  intros [b e] [b' e']; unfold range_compare; cbn; case_ifs; split; intros H;
    try lia; try (f_equal; lia); inversion H; lia.
Qed.

Lemma range_compare_antisym : forall r o, range_compare o r = - range_compare r o.
Proof. intros; range_unfold; case_ifs; lia. Qed.

Lemma range_compare_trans : forall a b c,
  range_compare a b <= 0 -> range_compare b c <= 0 -> range_compare a c <= 0.
Proof. intros a b c H1 H2; range_unfold; case_ifs; lia. Qed.

Lemma point_eq_loop_spec : forall a b, length a = length b ->
  (point_eq_loop a b = true <-> a = b).
Proof.
  induction a as [|x a IH]; intros [|y b] HL; cbn in *; try lia; try tauto.
  destruct (x =? y) eqn:E; cbn.
  - rewrite IH by lia. split; intros H; [f_equal; [lia|auto]|inversion H; auto].
  - split; intros H; [discriminate|inversion H; lia].
Qed.

Lemma point_eq_spec : forall a b, point_eq a b = true <-> a = b.
Proof.
  intros a b. unfold point_eq. destruct (Nat.eqb (length a) (length b)) eqn:E; cbn.
  - apply point_eq_loop_spec. lia.
  - split; intros H; [discriminate|subst; rewrite Nat.eqb_refl in E; discriminate].
Qed.

Lemma point_compare_loop_0 : forall a b, length a = length b ->
  (point_compare_loop a b = 0 <-> a = b).
Proof.
  induction a as [|x a IH]; intros [|y b] HL; cbn in *; try lia; try tauto.
  case_ifs.
  - split; intros H; [lia|inversion H; lia].
  - split; intros H; [lia|inversion H; lia].
  - rewrite IH by lia. split; intros H; [f_equal; [lia|auto]|inversion H; auto].
Qed.

Lemma point_compare_0 : forall a b, point_compare a b = 0 <-> a = b.
Proof.
  intros a b; unfold point_compare; case_ifs.
  - split; [lia|intros; subst; lia].
  - split; [lia|intros; subst; lia].
  - apply point_compare_loop_0; lia.
Qed.

Lemma point_compare_loop_antisym : forall a b,
  point_compare_loop b a = - point_compare_loop a b.
Proof.
  induction a as [|x a IH]; intros [|y b]; cbn; try lia.
  specialize (IH b). case_ifs; lia.
Qed.

Lemma point_compare_antisym : forall a b, point_compare b a = - point_compare a b.
Proof.
  intros; unfold point_compare. pose proof (point_compare_loop_antisym a b).
  case_ifs; lia.
Qed.

Lemma point_compare_loop_trans : forall a b c,
  length a = length b -> length b = length c ->
  point_compare_loop a b <= 0 -> point_compare_loop b c <= 0 ->
  point_compare_loop a c <= 0.
Proof.
  induction a as [|x a IH]; intros [|y b] [|z c] HL1 HL2; cbn in *; try lia.
  intros H1 H2. specialize (IH b c). case_ifs; try lia; apply IH; lia.
Qed.

Lemma point_compare_trans : forall a b c,
  point_compare a b <= 0 -> point_compare b c <= 0 -> point_compare a c <= 0.
Proof.
  intros a b c; unfold point_compare.
  pose proof (point_compare_loop_trans a b c). case_ifs; try lia.
Qed.

Lemma point_compare_lex : forall a b, length a = length b ->
  (point_compare a b < 0 <-> lex_lt a b).
Proof.
  intros a b HL. unfold point_compare.
  destruct (Nat.ltb (length a) (length b)) eqn:E1; [lia|].
  destruct (Nat.ltb (length b) (length a)) eqn:E2; [lia|]. clear E1 E2.
  revert b HL; induction a as [|x a IH]; intros [|y b] HL; cbn in *; try lia.
  - split; [lia|intros H; inversion H].
  - case_ifs.
    + split; [intros _|lia]. constructor; lia.
    + split; [lia|intros H; inversion H; subst; lia].
    + rewrite IH by lia. assert (x = y) by lia; subst y. split; intros H.
      * apply lex_next; auto.
      * inversion H; subst; [lia|auto].
Qed.
