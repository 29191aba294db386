(** Proofs about the generated loops. *)
From Coq Require Import ZArith List Bool Lia Sorted.
From Verif Require Import RangeModel MDRangeModel Spec Result BoxSetModel BoxSetProofs LoopModel LoopSpec.
Import ListNotations.
Open Scope Z_scope.

(** The values a dimension takes, in the order in which it takes them. *)
Definition dim_values (d : direction) (r : range) : list Z :=
  match d with
  | DirBackward => map (fun i => rend r - (i - rbegin r)) (for_values (rbegin r) (rend r))
  | _ => for_values (rbegin r) (rend r)
  end.
Fixpoint nest_values (ds : list direction) (b : mdrange) : list point :=
  match ds, b with
  | d :: ds', r :: b' => flat_map (fun v => map (cons v) (nest_values ds' b')) (dim_values d r)
  | _, _ => [[]]
  end.

Lemma all_ok_app : forall A (a b : list (res A)) x y, all_ok a = Ok x -> all_ok b = Ok y ->
  all_ok (a ++ b) = Ok (x ++ y).
Proof.
  induction a as [|r a IH]; cbn; intros b x y H1 H2; [injection H1 as <-; exact H2|].
  destruct r; cbn in *; try discriminate. destruct (all_ok a) eqn:E; cbn in *; try discriminate.
  injection H1 as <-. now rewrite (IH b _ _ eq_refl H2).
Qed.

Lemma all_ok_map : forall A B (f : A -> res B) (g : A -> B) l,
  (forall x, In x l -> f x = Ok (g x)) -> all_ok (map f l) = Ok (map g l).
Proof.
  induction l as [|x l IH]; cbn; intros H; auto. rewrite H by auto. cbn. rewrite IH by auto. reflexivity.
Qed.

Lemma shift_cons : forall d ds lb ub bounds v l y,
  d <> DirUnknown ->
  all_ok (map (shift_inductions ds bounds) l) = Ok y ->
  exists x, shift_induction d lb ub v = Ok x /\
  all_ok (map (shift_inductions (d :: ds) ((lb, ub) :: bounds)) (map (cons v) l)) = Ok (map (cons x) y).
Proof.
  intros d ds lb ub bounds v l y D. revert y.
  assert (X : exists x, shift_induction d lb ub v = Ok x) by (destruct d; cbn; eauto; congruence).
  destruct X as [x X]. intros y H. exists x. split; auto. revert y H.
  assert (C : forall p, shift_inductions (d :: ds) ((lb, ub) :: bounds) (v :: p) =
    (xs <- shift_inductions ds bounds p ;; Ok (x :: xs))) by (intros; cbn [shift_inductions]; now rewrite X).
  induction l as [|p l IH]; cbn [map all_ok]; intros y H; [injection H as <-; reflexivity|].
  rewrite C. destruct (shift_inductions ds bounds p); cbn [bind] in *; try discriminate.
  destruct (all_ok (map (shift_inductions ds bounds) l)); cbn [bind] in *; try discriminate.
  injection H as <-. rewrite (IH _ eq_refl). reflexivity.
Qed.

Lemma function_spec : forall ds b, length ds = length b -> Forall (fun d => d <> DirUnknown) ds ->
  equation_function ds (call_bounds b) = Ok (nest_values ds b).
Proof.
  induction ds as [|d ds IH]; intros [|r b] L U; try discriminate; [reflexivity|].
  inversion U; subst. injection L as L. specialize (IH b L H2).
  unfold equation_function in *. cbn [call_bounds map loop_nest nest_values]. fold (call_bounds b).
  assert (G : forall vs, all_ok (map (shift_inductions (d :: ds) ((rbegin r, rend r) :: call_bounds b))
       (flat_map (fun v => map (cons v) (loop_nest (call_bounds b))) vs)) =
     Ok (flat_map (fun v => map (cons v) (nest_values ds b))
          (map (fun v => match d with DirBackward => rend r - (v - rbegin r) | _ => v end) vs))).
  { induction vs as [|v vs IHv]; [reflexivity|]. cbn [flat_map map]. rewrite map_app.
    destruct (shift_cons d ds (rbegin r) (rend r) (call_bounds b) v _ _ H1 IH) as (x & X & Y).
    assert (E : x = match d with DirBackward => rend r - (v - rbegin r) | _ => v end)
      by (destruct d; cbn in X; congruence).
    rewrite <- E. apply all_ok_app; [exact Y|exact IHv]. }
  rewrite G. do 2 f_equal. unfold dim_values. destruct d; auto; apply map_id.
Qed.

Lemma for_values_in : forall lb ub v, In v (for_values lb ub) <-> lb <= v < ub.
Proof.
  intros lb ub v. unfold for_values. rewrite in_map_iff. split.
  - intros (i & <- & I). apply in_seq in I. lia.
  - intros H. exists (Z.to_nat (v - lb)). split; [lia|]. apply in_seq. lia.
Qed.

Lemma dim_values_in : forall d r v, In v (dim_values d r) <-> executed_value d r v.
Proof.
  intros d r v. destruct d; cbn; try apply for_values_in.
  rewrite in_map_iff. split.
  - intros (i & <- & I). apply for_values_in in I. lia.
  - intros H. exists (rbegin r + rend r - v). split; [lia|]. apply for_values_in. lia.
Qed.

Lemma for_sorted : forall lb ub, StronglySorted Z.lt (for_values lb ub).
Proof.
  intros lb ub. unfold for_values. generalize (Z.to_nat (ub - lb)) as n. generalize 0%nat as a.
  intros a n. revert a. induction n as [|n IH]; intros a; cbn; constructor; auto.
  apply Forall_forall. intros x X. apply in_map_iff in X as (i & <- & I). apply in_seq in I. lia.
Qed.

Lemma sorted_map : forall A B (R : A -> A -> Prop) (Q : B -> B -> Prop) (f : A -> B) l,
  (forall x y, R x y -> Q (f x) (f y)) -> StronglySorted R l -> StronglySorted Q (map f l).
Proof.
  induction l as [|x l IH]; cbn; intros H S; constructor; inversion S; subst; auto.
  apply Forall_forall. intros y Y. apply in_map_iff in Y as (z & <- & Z). apply H.
  rewrite Forall_forall in H3. auto.
Qed.

Lemma dim_sorted : forall d r, StronglySorted (value_before d) (dim_values d r).
Proof.
  intros d r. destruct d; cbn; try apply for_sorted.
  eapply sorted_map; [|apply for_sorted]. cbn. intros; lia.
Qed.

Lemma sorted_app : forall A (R : A -> A -> Prop) a b, StronglySorted R a -> StronglySorted R b ->
  (forall x y, In x a -> In y b -> R x y) -> StronglySorted R (a ++ b).
Proof.
  induction a as [|x a IH]; cbn; intros b SA SB H; auto. inversion SA; subst. constructor; auto.
  apply Forall_forall. intros y Y. apply in_app_iff in Y as [Y|Y]; auto.
  rewrite Forall_forall in H3. auto.
Qed.

Lemma nest_sorted : forall ds b, StronglySorted (iteration_before ds) (nest_values ds b).
Proof.
  induction ds as [|d ds IH]; intros [|r b]; cbn; try (repeat constructor; fail).
  pose proof (dim_sorted d r) as S. induction S as [|v vs S IHS F]; cbn; [constructor|].
  apply sorted_app; auto.
  - eapply sorted_map; [|apply IH]. intros x y H. now constructor.
  - intros x y X Y. apply in_map_iff in X as (p & <- & _). apply in_flat_map in Y as (w & W & Y).
    apply in_map_iff in Y as (q & <- & _). rewrite Forall_forall in F. constructor. auto.
Qed.

Lemma nest_in : forall ds b p, length ds = length b ->
  (In p (nest_values ds b) <-> length p = length b /\
    forall k d r v, nth_error ds k = Some d -> nth_error b k = Some r -> nth_error p k = Some v ->
      executed_value d r v).
Proof.
  induction ds as [|d ds IH]; intros [|r b] p L; try discriminate.
  - cbn. split.
    + intros [<-|[]]. split; auto. intros [|k]; discriminate.
    + intros [H _]. destruct p; [auto|discriminate].
  - cbn [nest_values]. rewrite in_flat_map. injection L as L. split.
    + intros (v & V & P). apply in_map_iff in P as (q & <- & Q). apply IH in Q as [Q1 Q2]; auto.
      split; [cbn; congruence|]. intros [|k] d' r' v' D R X; cbn in *.
      * injection D as <-. injection R as <-. injection X as <-. now apply dim_values_in.
      * eauto.
    + intros [P1 P2]. destruct p as [|v p]; [discriminate|]. exists v. split.
      * apply dim_values_in. exact (P2 0%nat d r v eq_refl eq_refl eq_refl).
      * apply in_map. apply IH; auto. split; [cbn in P1; congruence|].
        intros k. exact (P2 (S k)).
Qed.

Lemma before_irrefl : forall ds p, ~ iteration_before ds p p.
Proof.
  enough (G : forall ds p q, iteration_before ds p q -> p <> q) by (intros ds p H; exact (G _ _ _ H eq_refl)).
  induction 1 as [d ds x y p q H|d ds x p q H IH]; intros E; inversion E; subst; auto.
  destruct d; cbn in H; lia.
Qed.

Lemma sorted_nodup : forall ds l, StronglySorted (iteration_before ds) l -> NoDup l.
Proof.
  induction l as [|x l IH]; intros S; constructor; inversion S; subst; auto.
  intros X. rewrite Forall_forall in H2. apply H2 in X. now apply before_irrefl in X.
Qed.

Lemma call_spec : forall ds indices, indices <> [] ->
  Forall (fun d => d <> DirUnknown) ds -> bs_of (length ds) indices ->
  equation_call ds indices = Ok (concat (map (nest_values ds) indices)).
Proof.
  intros ds indices NE U B. unfold equation_call. destruct indices as [|b0 s0] eqn:E; [congruence|].
  cbn [bs_empty]. rewrite <- E in *. clear E NE.
  rewrite (all_ok_map _ _ _ (nest_values ds)); [reflexivity|].
  intros b IB. unfold bs_of in B. rewrite Forall_forall in B. destruct (B b IB) as [_ L].
  apply function_spec; auto.
Qed.

Lemma forward_in : forall ds b p, length ds = length b -> Forall (fun d => d <> DirBackward) ds ->
  (In p (nest_values ds b) <-> in_box p b).
Proof.
  intros ds b p L F. rewrite nest_in by auto. unfold in_box. revert b p L.
  induction F as [|d ds D F IH]; intros [|r b] p L; try discriminate.
  - split; [intros [H _]; destruct p; [constructor|discriminate]|].
    intros H; inversion H; subst. split; auto. intros [|k]; discriminate.
  - injection L as L. split.
    + intros [P1 P2]. destruct p as [|v p]; [discriminate|]. constructor.
      * specialize (P2 0%nat d r v eq_refl eq_refl eq_refl). unfold in_range. destruct d; cbn in P2; try lia; congruence.
      * apply IH; auto. split; [cbn in P1; congruence|]. intros k. exact (P2 (S k)).
    + intros H. inversion H as [|v x p' l V P]; subst. apply IH in P as [Q1 Q2]; auto. split; [cbn; congruence|].
      intros [|k] d' r' v' D' R X; cbn in *; [|eauto].
      injection D' as <-. injection R as <-. injection X as <-. unfold in_range in V. destruct d; cbn; try lia; congruence.
Qed.

Lemma nodup_app : forall A (a b : list A), NoDup a -> NoDup b -> (forall x, In x a -> ~ In x b) -> NoDup (a ++ b).
Proof.
  induction a as [|x a IH]; cbn; intros b N M D; auto. inversion N; subst. constructor.
  - rewrite in_app_iff. intros [X|X]; [auto|exact (D x (or_introl eq_refl) X)].
  - apply IH; auto.
Qed.

Lemma concat_nodup : forall ds indices, bs_of (length ds) indices -> disj indices ->
  Forall (fun d => d <> DirBackward) ds -> NoDup (concat (map (nest_values ds) indices)).
Proof.
  induction indices as [|b s IH]; intros B D F; cbn; [constructor|].
  inversion B; subst. inversion D as [|x l DB DS]; subst. apply nodup_app.
  - eapply sorted_nodup, nest_sorted.
  - apply IH; auto.
  - intros p P Q. destruct H1 as [_ L]. apply forward_in in P; auto.
    apply in_concat in Q as (lb & LB & Q). apply in_map_iff in LB as (c & <- & C).
    assert (LC : length c = length ds) by (unfold bs_of in H2; rewrite Forall_forall in H2; apply H2; auto).
    apply forward_in in Q; auto. rewrite Forall_forall in DB. exact (DB c C p (conj P Q)).
Qed.
