(** C29-C32: the matching of variables and equations. *)
From Coq Require Import ZArith List Bool Arith Permutation Lia.
From Verif Require Import RangeModel Result MatchModel MatchSpec MatchSetProofs MatchApplyProofs
  MatchSearchProofs MatchPathProofs MatchHKProofs MatchBuildProofs MatchLeafProofs MatchRunProofs MatchCaseProofs.
Import ListNotations.
Local Open Scope nat_scope.

(** Variables and equations with one-dimensional indices; the accesses of an
    equation are pairs of a variable and of the constant added to the index. *)
Definition shift (c : Z) : macc := AccFun (fun p => match p with [i] => [[(i + c)%Z]] | _ => [] end).
Definition pts (l : list Z) : pset := map (fun i => [i]) l.
Definition var1 (n : nat) (l : list Z) : mvar := MVar (n, None) (pts l) true.
Definition eqn1 (n : nat) (l : list Z) (a : list (nat * Z)) : meqn :=
  MEqn (n, None) (pts l) true (map (fun x => ((fst x, None), shift (snd x))) a).
Definition sc1 (n : nat) (i : Z) : scalar := ((n, None), [i]).
Definition plenty : nat := 100.
Definition lots : fuels := Fuels plenty plenty plenty.
Open Scope Z_scope.

(** * C29 *)

(** After any history of operations on a variable, the matched and the unmatched
    indices are disjoint and together are the matchable indices; the matchable
    and the matched ones are those the history asks for. *)
Theorem C29_partition : forall s h m, mt_run (mt_new s) h = Ok m ->
  partitioned m /\
  (forall p, In p (mt_all m) <-> ops_all h (fun p => In p s) p) /\
  (forall p, In p (mt_matched m) <-> ops_matched h (fun p => In p s) (fun _ => False) p).
Proof. intros s h m H. exact (history_new s h m H). Qed.
Print Assumptions C29_partition.

(** No history of matches of matchable indices trips an assertion. *)
Theorem C29_total : forall s h,
  (forall o, In o h -> match o with OpSet t | OpAdd t | OpRemove t => incl t s | OpShrink _ => False end) ->
  exists m, mt_run (mt_new s) h = Ok m.
Proof. intros s h H. exact (history_total s h H). Qed.
Print Assumptions C29_total.
Example C29_history_case :
  exists m, mt_run (mt_new (pts [0; 1; 2; 3])) [OpAdd (pts [0; 1]); OpRemove (pts [1]); OpShrink (pts [3]);
                                                OpSet (pts [2]); OpAdd (pts [0])] = Ok m
  /\ In [0] (mt_matched m) /\ In [2] (mt_matched m) /\ In [1] (mt_unmatched m) /\ ~ In [3] (mt_all m).
Proof. eexists. split; [reflexivity|]. cbn. intuition congruence. Qed.

(** The same for the entries of an edge: the matched and the unmatched ones are
    disjoint and together are the incidences. *)
Theorem C29_edges : forall h d, e_partitioned d -> ed_legal d h -> e_partitioned (fold_left ed_step h d).
Proof. intros h d H L. exact (edge_history h d H L). Qed.
Print Assumptions C29_edges.
Example C29_edges_case : e_partitioned ed_new /\
  ed_legal ed_new [EdAccess (pts [0; 1]) (pts [0; 1; 2]) 0 (shift 1); EdAdd [(0%nat, ([0], [1]))];
                   EdAccess (pts [0; 1]) (pts [0; 1; 2]) 1 (shift 0); EdRemove [(0%nat, ([0], [1]))]].
Proof.
  split; [intros x; cbn; tauto|]. cbn. intuition congruence.
Qed.

(** An index set given to a variable that is not inside the one it has leaves
    indices that are neither matched nor unmatched. *)
Theorem C29_grow_refuted : exists m s m', partitioned m /\ vv_setIndices m s = Ok m' /\ ~ partitioned m'.
Proof.
  exists (mt_new (pts [0])), (pts [0; 1]). eexists. split; [apply new_partitioned|]. split; [reflexivity|].
  intros H. destruct (H [1]) as [[H1 _] _]. cbn in H1. intuition congruence.
Qed.
Print Assumptions C29_grow_refuted.
(** The indices of an equation cannot be set: the pointer to the new indices has
    been moved from when it is read. *)
Theorem C29_equation_indices_refuted : forall m s m', ev_setIndices m s <> Ok m'.
Proof. intros m s m'. unfold ev_setIndices. destruct (assert_ok _); discriminate. Qed.
Print Assumptions C29_equation_indices_refuted.

(** * C30 *)

(** Applying an augmenting path to a valid matching succeeds, gives a valid
    matching of the same graph, keeps every matched scalar matched and matches a
    scalar equation that was not. *)
Theorem C30_augment : forall g fl, valid g -> augmenting g fl ->
  exists g', apply_path g fl = Ok g' /\ valid g' /\ same_graph g g' /\
    (forall n p, In n (g_nodes g) -> In p (mt_matched (g_vx g n)) -> In p (mt_matched (g_vx g' n))) /\
    (exists e i, In (NE e) (g_nodes g) /\ In i (mt_unmatched (g_vx g (NE e))) /\
                 In i (mt_matched (g_vx g' (NE e)))).
Proof.
  intros g fl V A. destruct (apply_augmenting g fl V A) as (g' & E & Ap & N).
  exists g'. split; [exact E|]. split; [apply Ap|]. split; [apply Ap|]. split; [|exact N].
  intros n p Hn Hp. destruct n as [v|e].
  - apply (al_var _ _ _ Ap); auto.
  - apply (al_eq _ _ _ Ap); auto.
Qed.
Print Assumptions C30_augment.

(** Every path that the search accepts on a valid matching is augmenting, for
    every local solver and every schedule. *)
Theorem C30_search : forall solve sc fuel it g R, local_solver solve -> schedule sc -> valid g ->
  augmenting_paths solve fuel sc it g = Ok R -> forall fl, In fl R -> augmenting g fl.
Proof.
  intros solve sc fuel it g R Hs Hsc V E fl Hin.
  destruct (iteration solve Hs sc Hsc g fuel it R V E) as [[-> _]|(_ & H & _)]; [destruct Hin|auto].
Qed.
Print Assumptions C30_search.

(** When every variable is a scalar, the paths accepted by an iteration can be
    applied one after the other. *)
Theorem C30_iteration_partial : forall solve sc fuel it g R, local_solver solve -> schedule sc -> valid g ->
  scalar_vars g -> augmenting_paths solve fuel sc it g = Ok R ->
  exists g', fold_res apply_path R g = Ok g' /\ valid g' /\ same_graph g g'.
Proof.
  intros solve sc fuel it g R Hs Hsc V SV E.
  exact (iteration_applies solve Hs sc Hsc g fuel it R V SV E).
Qed.
Print Assumptions C30_iteration_partial.

(** A system of four scalar equations in an array. *)
Definition crossed : msys :=
  MSys [var1 0 [0; 1; 2; 3]]
    [eqn1 0 [0] [(0%nat, 1); (0%nat, 0)]; eqn1 1 [0] [(0%nat, 1); (0%nat, 0)];
     eqn1 2 [0; 1] [(0%nat, 0); (0%nat, 1); (0%nat, 2)]].
Definition crossed_matching : list (scalar * scalar) :=
  [(sc1 0 0, sc1 0 1); (sc1 1 0, sc1 0 0); (sc1 2 0, sc1 0 2); (sc1 2 1, sc1 0 3)].
Lemma crossed_solvable : solvable crossed.
Proof. exists (fun x y => In (x, y) crossed_matching). apply perfectb_spec. vm_compute. reflexivity. Qed.

Definition crossed_1 : res mgraph :=
  g <- m_build crossed ;; R <- augmenting_paths solve_access plenty sched_seq 0 g ;; fold_res apply_path R g.
Lemma crossed_1_valid : exists g, crossed_1 = Ok g /\ valid g.
Proof.
  unfold crossed_1. destruct (m_build crossed) as [g0| |] eqn:Eg; [|vm_compute in Eg; discriminate..]. cbn [bind].
  pose proof (built_valid _ _ (build_built _ _ Eg)) as V0.
  assert (X : (g0 <- m_build crossed ;; R <- augmenting_paths solve_access plenty sched_seq 0 g0 ;; Ok (length R)) = Ok 1%nat)
    by (vm_compute; reflexivity).
  rewrite Eg in X. cbn [bind] in X. apply bind_ok in X as (R & ER & EL). inversion EL as [EL'].
  rewrite ER. cbn [bind]. destruct R as [|fl [|? ?]]; try discriminate.
  pose proof (C30_search _ _ _ _ _ _ solve_access_local sched_seq_ok V0 ER fl (or_introl eq_refl)) as A.
  destruct (C30_augment g0 fl V0 A) as (g1 & E1 & V1 & _). cbn [fold_res]. rewrite E1. cbn. eauto.
Qed.
Example C30_augment_case : exists g fl, crossed_1 = Ok g /\ valid g /\ augmenting g fl /\ length fl = 3%nat.
Proof.
  destruct crossed_1_valid as (g & E & V).
  assert (X : (g <- crossed_1 ;; R <- augmenting_paths solve_access plenty sched_seq 1 g ;; Ok (map (@length _) R)) = Ok [3; 3]%nat)
    by (vm_compute; reflexivity).
  rewrite E in X. cbn [bind] in X. apply bind_ok in X as (R & ER & EL). inversion EL as [EL'].
  destruct R as [|fl R]; [discriminate|]. exists g, fl. split; auto. split; auto. split.
  - apply (C30_search _ _ _ _ _ _ solve_access_local sched_seq_ok V ER). now left.
  - cbn in EL'. congruence.
Qed.

(** With array variables, the paths that an iteration accepts may pass through
    the same scalar: each is augmenting, but applying them all gives an invalid
    matching. *)
Theorem C30_together_refuted : exists g R g', valid g /\
  augmenting_paths solve_access plenty sched_seq 1 g = Ok R /\ (forall fl, In fl R -> augmenting g fl) /\
  fold_res apply_path R g = Ok g' /\ ~ valid g'.
Proof.
  destruct crossed_1_valid as (g & E & V).
  assert (X : exists R g', augmenting_paths solve_access plenty sched_seq 1 g = Ok R /\ fold_res apply_path R g = Ok g' /\
             map (fun e => ents (ed_match (g_ed g' e))) (g_edges g') =
               [[([0], [1])]; [([0], [0])]; [([1], [2]); ([0], [2])]] /\
             g_edges g' = [((0%nat, None), (0%nat, None)); ((1%nat, None), (0%nat, None)); ((2%nat, None), (0%nat, None))]).
  { assert (X : (g <- crossed_1 ;; R <- augmenting_paths solve_access plenty sched_seq 1 g ;;
                 g' <- fold_res apply_path R g ;; Ok (map (fun e => ents (ed_match (g_ed g' e))) (g_edges g'), g_edges g')) =
      Ok ([[([0], [1])]; [([0], [0])]; [([1], [2]); ([0], [2])]],
          [((0%nat, None), (0%nat, None)); ((1%nat, None), (0%nat, None)); ((2%nat, None), (0%nat, None))]))
      by (vm_compute; reflexivity).
    rewrite E in X. cbn [bind] in X. apply bind_ok in X as (R & ER & X). apply bind_ok in X as (g' & Eg' & X).
    inversion X as [[X1 X2]]. exists R, g'. auto. }
  destruct X as (R & g' & ER & Eg' & Em & Ee). exists g, R, g'. split; auto. split; auto.
  split; [exact (C30_search _ _ _ _ _ _ solve_access_local sched_seq_ok V ER)|]. split; auto.
  intros V'. pose proof (va_one _ V') as [_ O]. rewrite Ee in Em. cbn [map] in Em. inversion Em as [[M0 M1 M2]].
  assert (P1 : g_pairs g' (sc1 2 1) (sc1 0 2)).
  { split; [rewrite Ee; cbn; auto|]. refine (eq_ind_r (fun l => In _ l) _ M2). cbn. auto. }
  assert (P2 : g_pairs g' (sc1 2 0) (sc1 0 2)).
  { split; [rewrite Ee; cbn; auto|]. refine (eq_ind_r (fun l => In _ l) _ M2). cbn. auto. }
  pose proof (O _ _ _ P1 P2) as Eq. discriminate.
Qed.
Print Assumptions C30_together_refuted.

(** * C31 *)

(** On a matchable system, the matching of the leaf nodes never fails, its
    matches are in every perfect matching, what is left is matchable, and a
    perfect matching of what is left completes them. *)
Theorem C31_leaf : forall solve ord s, local_solver solve -> (forall l, Permutation (ord l) l) ->
  system s -> solvable s ->
  exists g N g1, m_build s = Ok g /\ (forall fuel, (N <= fuel)%nat -> leaf_run solve fuel ord g = Ok g1) /\
    valid g1 /\ (forall P, perfect s P -> forall x y, g_pairs g1 x y -> P x y) /\
    solvable (sys_unmatched s g1) /\
    (forall Q, perfect (sys_unmatched s g1) Q -> perfect s (fun x y => g_pairs g1 x y \/ Q x y)).
Proof. intros solve ord s Hs Ho S Hsol. exact (leaf_solvable solve Hs ord Ho s S Hsol). Qed.
Print Assumptions C31_leaf.

(** Whatever the system, a matching of the leaf nodes that ends has only made
    forced matches: the system is matchable exactly when what is left is. *)
Theorem C31_exact : forall solve ord fuel s g g1, local_solver solve -> (forall l, Permutation (ord l) l) ->
  m_build s = Ok g -> leaf_run solve fuel ord g = Ok g1 ->
  valid g1 /\ (solvable s <-> solvable (sys_unmatched s g1)).
Proof.
  intros solve ord fuel s g g1 Hs Ho Eg E1. pose proof (build_built _ _ Eg) as B.
  assert (L : leaf_inv g g1) by (eapply leaf_run_spec; eauto; eapply built_leaf; eauto).
  split; [apply L|]. pose proof (stage_leaf _ _ _ B L) as [S1 S2]. split; [auto|].
  intros [Q HQ]. destruct (S2 Q HQ) as (P & HP & _). now exists P.
Qed.
Print Assumptions C31_exact.
(** Three equations; the second has one variable, which leaves one to the first,
    which leaves one to the third. *)
Definition chained : msys :=
  MSys [var1 0 [0; 1]; var1 1 [0]] [eqn1 0 [0; 1] [(0%nat, 0); (1%nat, 0)]; eqn1 1 [0] [(1%nat, 0)]].
Example C31_leaf_case : system chained /\ solvable chained /\
  exists g g1, m_build chained = Ok g /\ leaf_run solve_access plenty (fun l => l) g = Ok g1 /\
    g_pairs g1 (sc1 1 0) (sc1 1 0) /\ g_pairs g1 (sc1 0 1) (sc1 0 1).
Proof.
  split; [|split].
  - constructor; cbn; try (repeat constructor; cbn; intuition congruence);
      intros w Hw; intuition; subst; discriminate.
  - exists (fun x y => In (x, y) [(sc1 1 0, sc1 1 0); (sc1 0 0, sc1 0 0); (sc1 0 1, sc1 0 1)]).
    apply perfectb_spec. vm_compute. reflexivity.
  - destruct (m_build chained) as [g| |] eqn:Eg; [|vm_compute in Eg; discriminate..].
    assert (X : (g <- m_build chained ;; g1 <- leaf_run solve_access plenty (fun l => l) g ;;
                 Ok (g_edges g1, map (fun e => ents (ed_match (g_ed g1 e))) (g_edges g1))) =
                Ok ([((0, None), (0, None)); ((0, None), (1, None)); ((1, None), (1, None))]%nat,
                    [[([0], [0]); ([1], [1])]; []; [([0], [0])]])) by (vm_compute; reflexivity).
    rewrite Eg in X. cbn [bind] in X. apply bind_ok in X as (g1 & E1 & X). inversion X as [[X1 X2]].
    rewrite X1 in X2. cbn [map] in X2. inversion X2 as [[Y1 Y2 Y3]].
    exists g, g1. split; auto. split; auto. split; (split; [rewrite X1; cbn; auto|]).
    + refine (eq_ind_r (fun l => In _ l) _ Y3). cbn. auto.
    + refine (eq_ind_r (fun l => In _ l) _ Y1). cbn. auto.
Qed.

(** On a system that is not matchable the matching of the leaf nodes may trip an
    assertion, where the general algorithm reports the failure. *)
Definition starved_leaf : msys :=
  MSys [var1 0 [0; 1]; var1 1 [0]] [eqn1 0 [0] [(0%nat, 0)]; eqn1 1 [0; 1] [(1%nat, 0)]].
Theorem C31_crash_refuted : exists s, system s /\ source s /\
  length (eq_scalars s) = length (var_scalars s) /\
  match_run solve_access lots sched_seq true None s = Bad /\
  match_run solve_access lots sched_seq false None s = Ok None.
Proof.
  exists starved_leaf. split; [|split; [|split; [reflexivity|split; vm_compute; reflexivity]]].
  - constructor; cbn; try (repeat constructor; cbn; intuition congruence);
      intros w Hw; intuition; subst; discriminate.
  - split; cbn; intros w Hw; intuition; subst; cbn in *; intuition; subst; auto.
Qed.
Print Assumptions C31_crash_refuted.

(** * C32 *)

(** When every variable that has several elements is made of scalars, a success
    reports a perfect matching of the system. *)
Theorem C32_success_partial : forall solve sc fu leaf pick s r, local_solver solve -> schedule sc ->
  source s -> scalarizes pick s ->
  match_run solve fu sc leaf pick s = Ok (Some r) -> exists P, perfect s P /\ reports r (bare P).
Proof.
  intros solve sc fu leaf pick s r Hs Hsc So H E.
  destruct (match_run_spec solve Hs sc Hsc fu leaf pick s (Some r) E (source_unmasked s So) H) as (P & HP & R).
  exists P. split; auto. eapply reports_ext; [|exact R]. apply (unmasked_bare s P (source_unmasked s So) HP).
Qed.
Print Assumptions C32_success_partial.
(** In the same case, a failure means that the system has no perfect matching. *)
Theorem C32_failure_partial : forall solve sc fu leaf pick s, local_solver solve -> schedule sc ->
  source s -> scalarizes pick s ->
  match_run solve fu sc leaf pick s = Ok None -> ~ solvable s.
Proof.
  intros solve sc fu leaf pick s Hs Hsc So H E.
  exact (match_run_spec solve Hs sc Hsc fu leaf pick s None E (source_unmasked s So) H).
Qed.
Print Assumptions C32_failure_partial.
(** In the same case the matching of a system that has a perfect matching ends,
    and succeeds, if moreover the accesses have one element each. *)
Theorem C32_complete_partial : forall solve sc leaf pick s, local_solver solve -> schedule sc ->
  system s -> source s -> scalarizes pick s -> (pick <> None -> one_target s) -> solvable s ->
  exists N, forall fu, (N <= fu_leaf fu)%nat -> (N <= fu_hk fu)%nat -> (N <= fu_bfs fu)%nat ->
    exists r, match_run solve fu sc leaf pick s = Ok (Some r).
Proof.
  intros solve sc leaf pick s Hs Hsc Sy So H Ho Hsol.
  exact (match_run_total solve Hs sc Hsc leaf pick s Sy (source_unmasked s So) H Ho Hsol).
Qed.
Print Assumptions C32_complete_partial.
Lemma crossed_system : system crossed /\ source crossed.
Proof.
  split.
  - constructor; cbn; try (repeat constructor; cbn; intuition congruence);
      intros w Hw; intuition; subst; discriminate.
  - split; cbn; intros w Hw; intuition; subst; cbn in *; intuition; subst; auto.
Qed.
Example C32_complete_case : local_solver solve_access /\ schedule sched_seq /\ system crossed /\ source crossed /\
  scalarizes (Some (fun _ _ => true)) crossed /\ one_target crossed /\ solvable crossed /\
  exists r, match_run solve_access lots sched_seq true (Some (fun _ _ => true)) crossed = Ok (Some r).
Proof.
  split; [exact solve_access_local|]. split; [exact sched_seq_ok|].
  split; [apply crossed_system|]. split; [apply crossed_system|].
  split. { intros w _. right. exists (fun _ _ => true). auto. }
  split.
  { intros q v a i Hq Ha Hi. cbn in Hq. intuition; subst; cbn in Ha, Hi; intuition; subst;
      match goal with E : (_, _) = (_, _) |- _ => inversion E; subst end;
      eexists; intros k; cbn; intuition eauto. }
  split; [exact crossed_solvable|]. eexists. vm_compute. reflexivity.
Qed.

(** With array variables, a success may be wrong: here two variables are in the
    same scalar equation only. *)
Definition overmatched : msys :=
  MSys [var1 0 [0; 1; 2; 3; 4]; var1 1 [0; 1; 2; 3]]
    [eqn1 0 [1; 2] [(0%nat, -1); (1%nat, 1)]; eqn1 1 [1] [(1%nat, 2); (0%nat, 2)];
     eqn1 2 [0] [(0%nat, 0); (1%nat, 3)];
     eqn1 3 [0; 1; 2] [(0%nat, 2); (1%nat, 1); (1%nat, 0)]; eqn1 4 [3; 4] [(0%nat, 0)]].
Theorem C32_success_refuted : exists s r, system s /\ source s /\ one_target s /\
  match_run solve_access lots sched_seq true None s = Ok (Some r) /\ ~ solvable s.
Proof.
  exists overmatched. eexists. split; [|split; [|split; [|split; [vm_compute; reflexivity|]]]].
  - constructor; cbn; try (repeat constructor; cbn; intuition congruence);
      intros w Hw; intuition; subst; discriminate.
  - split; cbn; intros w Hw; intuition; subst; cbn in *; intuition; subst; auto.
  - intros q v a i Hq Ha Hi. cbn in Hq. intuition; subst; cbn in Ha, Hi; intuition; subst;
      match goal with E : (_, _) = (_, _) |- _ => inversion E; subst end;
      eexists; intros k; cbn; intuition eauto.
  - apply (starved overmatched (sc1 3 0) (sc1 0 2) (sc1 1 0)).
    + discriminate.
    + exists (var1 0 [0; 1; 2; 3; 4]). split; [cbn; auto|]. split; [reflexivity|cbn; auto 8].
    + exists (var1 1 [0; 1; 2; 3]). split; [cbn; auto|]. split; [reflexivity|cbn; auto 8].
    + vm_compute. reflexivity.
Qed.
Print Assumptions C32_success_refuted.
(** Also with array variables, a matchable system may be reported as not
    matchable. *)
Theorem C32_failure_refuted : exists s, system s /\ source s /\ solvable s /\
  match_run solve_access lots sched_seq true None s = Ok None.
Proof.
  exists crossed. split; [apply crossed_system|]. split; [apply crossed_system|].
  split; [exact crossed_solvable|]. vm_compute. reflexivity.
Qed.
Print Assumptions C32_failure_refuted.
