(** C106: promoting variables to parameters.

    VariablesPromotion finds the variables whose equations use neither time nor
    anything that varies, makes parameters of them, and moves their equations
    among the initial ones. A user relies on the simulation not changing: a
    parameter is computed once, so a promoted variable must have been constant,
    and nothing that its equations said may be lost. *)
From Coq Require Import ZArith List Bool Arith Lia.
From Verif Require Import RangeModel MDRangeModel BoxSetModel Spec BoxSetProofs WritesMapModel PromoteModel PromoteSpec PromoteProofs.
Import ListNotations.
Local Open Scope nat_scope.

(** A promoted variable is constant in every solution of the model, for every
    list of SCCs in every order, if each SCC determines what it is solved for and
    no access reaches elements of both kinds, with and without a main equation.
    Without the last it is false, see [C106_mixed_access_refuted]. *)
Theorem C106_constant_partial : forall (K T V : Type) (clock : T -> V) (leaf : K -> point -> V) (op : nat -> list V -> V) t0 (m : vmodel K) sccs x,
  well_formed m -> whole_accesses m -> sccs_determine V leaf op m sccs -> solution T V clock leaf op t0 m x ->
  forall v dims i t t', In v (vm_readonly (promote m sccs)) -> In (v, dims) (vm_vars m) -> element dims i -> x t v i = x t' v i.
Proof.
  intros K T V clock leaf op t0 m sccs x W A D Sx v dims i t t' Hv Hd He.
  exact (sol_readonly _ _ _ _ _ _ _ _ (promote_sound T V clock leaf op t0 m sccs W A x D Sx) v dims t t' i Hv Hd He).
Qed.
Print Assumptions C106_constant_partial.

(** The promoted model has exactly the solutions of the model, if besides that the
    main equations are repeated among the initial ones where these are solved for
    the same elements, elements of arrays are written by equations with
    iterations, and the equations that stay determine what they are solved for.
    Without the second it is false, see [C106_elements_lost_refuted]. *)
Theorem C106_solutions_partial : forall (K T V : Type) (clock : T -> V) (leaf : K -> point -> V) (op : nat -> list V -> V) t0 (m : vmodel K) sccs x,
  well_formed m -> whole_accesses m -> sccs_determine V leaf op m sccs ->
  initial_repeats m -> arrays_iterated m -> rest_determines V leaf op m (promote m sccs) sccs ->
  (solution T V clock leaf op t0 (promote m sccs) x <-> solution T V clock leaf op t0 m x).
Proof.
  intros K T V clock leaf op t0 m sccs x W A D Rep Arr R. split.
  - exact (promote_complete T V clock leaf op t0 m sccs W A x Rep Arr R).
  - exact (promote_sound T V clock leaf op t0 m sccs W A x D).
Qed.
Print Assumptions C106_solutions_partial.

(** ** Examples *)
Definition pts : list point := [[0%Z]; [1%Z]].
Definition arr : bset := bs_of_points pts.
Definition self (p : point) : point := p.
Definition none (p : point) : point := [].
Definition at_ (z : Z) (p : point) : point := [z].
Definition zop (o : nat) (l : list Z) : Z := fold_right Z.add 0%Z l.
Definition zleaf (k : Z) (p : point) : Z := k.

(** An equation that gives the elements it is solved for, from others. *)
Lemma explicit_determines : forall (q : veq Z),
  ve_left q = VRead (mkVaccess (ve_match q) (ve_write q) (ve_indices q)) ->
  (forall a, occurs (ve_right q) a -> a_var a <> ve_match q) -> determines Z zleaf zop [q].
Proof.
  intros q El Er c x y Hx Hy A q' w i [<-|[]] (-> & p & Hp & ->).
  pose proof (Hx q (or_introl eq_refl) p Hp) as Ex. pose proof (Hy q (or_introl eq_refl) p Hp) as Ey. rewrite El in Ex, Ey. cbn [value a_var a_sub] in Ex, Ey.
  rewrite Ex, Ey.
  assert (G : forall e, (forall a, occurs e a -> x (a_var a) (a_sub a p) = y (a_var a) (a_sub a p)) -> value Z zleaf zop c x p e = value Z zleaf zop c y p e).
  { intros e. induction e as [|k|b|o args IH] using vexpr_size_ind; intros H; cbn [value]; auto.
    - apply H. constructor.
    - f_equal. apply map_ext_in. intros e He. apply IH; [exact He|]. intros a Ha. apply H. exact (occurs_arg o args e a He Ha). }
  apply G. intros a Ha. destruct (A q (a_var a) (a_sub a p) (or_introl eq_refl)) as [(q' & [<-|[]] & (E & _))|E]; [|destruct (Er a Ha E)|exact E].
  exists a, p. unfold has_access. auto.
Qed.

(** p is a parameter; a = p + 1; b[i] = a + 5; y = time + a; and the state s has
    der(s) = b[1]. *)
Definition acc_s (v : nat) := VRead (K := Z) (mkVaccess v none []).
Definition acc_a (v : nat) := VRead (K := Z) (mkVaccess v self arr).
Definition acc_1 (v : nat) := VRead (K := Z) (mkVaccess v (at_ 1) (bs_of_points [[1%Z]])).
Definition q_a := mkVeq (K := Z) 1 [] [] [[]] none (acc_s 1) (VOp 0 [acc_s 0; VLeaf 1%Z]).
Definition q_b := mkVeq (K := Z) 2 arr arr pts self (acc_a 2) (VOp 0 [acc_s 1; VLeaf 5%Z]).
Definition q_y := mkVeq (K := Z) 3 [] [] [[]] none (acc_s 3) (VOp 0 [VTime; acc_s 1]).
Definition q_s := mkVeq (K := Z) 5 [] [] [[]] none (acc_s 5) (acc_1 2).
Definition case_model : vmodel Z := mkVmodel [(0, []); (1, []); (2, arr); (3, []); (4, []); (5, [])] [0] [(4, 5)] [] [q_a; q_b; q_y; q_s].
Definition case_sccs : list (list nat) := [[0]; [1]; [2]; [3]].

Ltac occ Ha := apply vaccesses_occurs in Ha; cbn in Ha; repeat (destruct Ha as [<-|Ha]); try destruct Ha.
Lemma arr_of : bs_of 1 arr. Proof. repeat constructor; cbn; try discriminate; lia. Qed.
Lemma one_of : bs_of 1 (bs_of_points [[1%Z]]). Proof. repeat constructor; cbn; try discriminate; lia. Qed.
Lemma reach_arr : reached_by pts self arr arr.
Proof.
  split; [discriminate|]. split; [exists 1; split; exact arr_of|]. split; [|auto]. intros i. unfold arr. rewrite of_points_in.
  unfold self. split; [eauto|]. intros (p & Hp & ->). exact Hp.
Qed.
Lemma reach_one : reached_by [[]] (at_ 1) arr (bs_of_points [[1%Z]]).
Proof.
  split; [discriminate|]. split; [exists 1; split; [exact one_of|exact arr_of]|]. unfold arr. split; intros i; rewrite !of_points_in.
  - split; [intros [<-|[]]; exists []; split; [now left|reflexivity]|]. intros (p & _ & ->). now left.
  - intros [<-|[]]. right. now left.
Qed.
Lemma reach_scalar : forall ps, reached_by ps none [] [].
Proof. intros ps. split; [reflexivity|]. intros p _. reflexivity. Qed.

Lemma once_by_match : forall (eqs : list (veq Z)) k k' q q' (w : nat) (i : point), NoDup (map ve_match eqs) -> nth_error eqs k = Some q -> nth_error eqs k' = Some q' ->
  solved_for q w i -> solved_for q' w i -> k = k'.
Proof.
  intros eqs k k' q q' w i N H H' (-> & _) (E & _). apply (proj1 (NoDup_nth_error _) N).
  - rewrite map_length. apply nth_error_Some. congruence.
  - rewrite !nth_error_map, H, H'. cbn. congruence.
Qed.
Lemma case_wf : well_formed case_model.
Proof.
  constructor.
  - repeat constructor; cbn; intros H; repeat destruct H as [H|H]; try discriminate; exact H.
  - intros q [[]|[<-|[<-|[<-|[<-|[]]]]]]; eexists.
    + split; [right; left; reflexivity|apply reach_scalar].
    + split; [do 2 right; left; reflexivity|exact reach_arr].
    + split; [do 3 right; left; reflexivity|apply reach_scalar].
    + split; [do 5 right; left; reflexivity|apply reach_scalar].
  - intros q [[]|[<-|[<-|[<-|[<-|[]]]]]]; discriminate.
  - intros k k' q q' w i. apply once_by_match. repeat constructor; cbn; intros H; repeat destruct H as [H|H]; try discriminate; exact H.
  - intros q a Hq Ha. destruct Hq as [<-|[<-|[<-|[<-|[]]]]]; destruct Ha as [Ha|Ha]; occ Ha; cbn [a_var a_sub a_read ve_points].
    all: try (eexists; split; [|apply reach_scalar]; cbn; tauto).
    + exists arr. split; [cbn; tauto|exact reach_arr].
    + exists arr. split; [cbn; tauto|exact reach_one].
Qed.
Lemma case_whole : whole_accesses case_model.
Proof.
  intros q a Hq Ha (q' & i & Hq' & (E & _) & _) p Hp.
  assert (S1 : exists q', In q' (vm_main case_model) /\ solved_for q' 1 []) by (exists q_a; split; [cbn; tauto|]; split; [reflexivity|]; exists []; split; [now left|reflexivity]).
  assert (S3 : exists q', In q' (vm_main case_model) /\ solved_for q' 3 []) by (exists q_y; split; [cbn; tauto|]; split; [reflexivity|]; exists []; split; [now left|reflexivity]).
  assert (S5 : exists q', In q' (vm_main case_model) /\ solved_for q' 5 []) by (exists q_s; split; [cbn; tauto|]; split; [reflexivity|]; exists []; split; [now left|reflexivity]).
  assert (S2 : forall p, In p pts -> exists q', In q' (vm_main case_model) /\ solved_for q' 2 p) by
    (intros p0 H0; exists q_b; split; [cbn; tauto|]; split; [reflexivity|]; exists p0; split; [exact H0|reflexivity]).
  destruct Hq as [<-|[<-|[<-|[<-|[]]]]]; destruct Ha as [Ha|Ha]; occ Ha; cbn [a_var a_sub]; auto.
  - (* the parameter *) exfalso. cbn [a_var] in E. repeat (destruct Hq' as [<-|Hq']); try discriminate E; destruct Hq'.
  - apply S2. right. now left.
Qed.
Lemma case_determine : sccs_determine Z zleaf zop case_model case_sccs.
Proof.
  intros scc [<-|[<-|[<-|[<-|[]]]]]; apply explicit_determines; try reflexivity; intros a Ha; occ Ha; discriminate.
Qed.
Lemma empty_determines : determines (K := Z) Z zleaf zop [].
Proof. intros c x y _ _ _ q w i []. Qed.
Definition case_solution (t : Z) (v : nat) (i : point) : Z :=
  match v with 0 => 10%Z | 1 => 11%Z | 2 => 16%Z | 3 => (t + 11)%Z | 4 => (16 * t)%Z | _ => 16%Z end.
Lemma case_solves : solution Z Z (fun t => t) zleaf zop 0%Z case_model case_solution.
Proof.
  constructor.
  - intros v dims t t' i [<-|[]] _ _. reflexivity.
  - intros q [].
  - intros q t [<-|[<-|[<-|[<-|[]]]]] p Hp; cbn; unfold zleaf; lia.
Qed.

(** a and b become parameters and their equations are moved; y and der(s) are
    not. *)
Example C106_case_parameters : vm_readonly (promote case_model case_sccs) = [0; 1; 2] /\
  map ve_match (vm_initial (promote case_model case_sccs)) = [1; 2] /\ map ve_match (vm_main (promote case_model case_sccs)) = [3; 5] /\
  map ve_points (vm_initial (promote case_model case_sccs)) = [[[]]; pts].
Proof. repeat split; vm_compute; reflexivity. Qed.
Example C106_constant_case : forall x, solution Z Z (fun t => t) zleaf zop 0%Z case_model x -> forall t t', x t 2 [1%Z] = x t' 2 [1%Z].
Proof.
  intros x Sx t t'. apply (C106_constant_partial Z Z Z (fun t => t) zleaf zop 0%Z case_model case_sccs x case_wf case_whole case_determine Sx 2 arr).
  - rewrite (proj1 C106_case_parameters). cbn. tauto.
  - cbn. tauto.
  - cbn [arr pts element]. unfold arr. change (in_boxes [1%Z] (bs_of_points pts)). rewrite of_points_in. right. now left.
Qed.
Example C106_solutions_case : forall x,
  solution Z Z (fun t => t) zleaf zop 0%Z (promote case_model case_sccs) x <-> solution Z Z (fun t => t) zleaf zop 0%Z case_model x.
Proof.
  intros x. apply C106_solutions_partial; [exact case_wf|exact case_whole|exact case_determine| | |].
  - intros q p _ _ (q' & [] & _).
  - intros q dims [<-|[<-|[<-|[<-|[]]]]] H N; try discriminate; cbn in H; repeat destruct H as [H|H]; try discriminate; try injection H as <-; try easy; contradiction.
  - intros scc S Hs HS. rewrite (proj1 C106_case_parameters) in HS.
    assert (G : forall k q, nth_error (vm_main case_model) k = Some q -> scc = [k] -> In scc case_sccs -> determines Z zleaf zop S).
    { intros k q Hq -> Hin. intros c x0 y Hx Hy A q1 w i H1 Hs1.
      assert (E1 : forall q2, In q2 S -> q2 = q).
      { intros q2 H2. apply HS in H2 as (k2 & [<-|[]] & H2 & _). congruence. }
      pose proof (case_determine [k] Hin) as D. cbn [flat_map] in D. rewrite Hq in D. cbn [app] in D. pose proof (E1 q1 H1) as ->.
      apply (D c x0 y) with (q := q); [| | |now left|exact Hs1].
      - intros q2 [<-|[]]. now apply Hx.
      - intros q2 [<-|[]]. now apply Hy.
      - intros q2 w2 i2 [<-|[]] R. destruct (A q w2 i2 H1 R) as [(q3 & H3 & S3)|E]; [left|right; exact E].
        exists q. split; [cbn; tauto|]. rewrite (E1 q3 H3) in S3. exact S3. }
    pose proof Hs as Hs'. destruct Hs as [<-|[<-|[<-|[<-|[]]]]].
    + exact (G 0 q_a eq_refl eq_refl Hs').
    + exact (G 1 q_b eq_refl eq_refl Hs').
    + exact (G 2 q_y eq_refl eq_refl Hs').
    + exact (G 3 q_s eq_refl eq_refl Hs').
Qed.
Example C106_solutions_exist : solution Z Z (fun t => t) zleaf zop 0%Z (promote case_model case_sccs) case_solution.
Proof. apply C106_solutions_case. exact case_solves. Qed.

(** ** An access that reaches a state and a constant *)

(** x[0] is a state with der(x[0]) = 1, x[1] = 3, and y[i] = x[i]. The check of an
    access takes the equations that write any of the elements reached, and the
    state x[0] has none: y is made a parameter, although y[0] grows. *)
Definition q_x1 := mkVeq (K := Z) 0 (bs_of_points [[1%Z]]) [] [[]] (at_ 1) (acc_1 0) (VLeaf 3%Z).
Definition q_yx := mkVeq (K := Z) 1 arr arr pts self (acc_a 1) (acc_a 0).
Definition q_d := mkVeq (K := Z) 2 (bs_of_points [[0%Z]]) [] [[]] (at_ 0) (VRead (mkVaccess 2 (at_ 0) (bs_of_points [[0%Z]]))) (VLeaf 1%Z).
Definition mixed_model : vmodel Z := mkVmodel [(0, arr); (1, arr); (2, arr)] [] [(0, 2)] [] [q_x1; q_yx; q_d].
Definition mixed_sccs : list (list nat) := [[0]; [1]; [2]].
Definition mixed_solution (t : Z) (v : nat) (i : point) : Z :=
  match v, i with 2, _ => 1%Z | _, [0%Z] => t | _, _ => 3%Z end.

Lemma reach_zero : reached_by [[]] (at_ 0) arr (bs_of_points [[0%Z]]).
Proof.
  split; [discriminate|]. split; [exists 1; split; [repeat constructor; cbn; try discriminate; lia|exact arr_of]|].
  unfold arr. split; intros i; rewrite !of_points_in.
  - split; [intros [<-|[]]; exists []; split; [now left|reflexivity]|]. intros (p & _ & ->). now left.
  - intros [<-|[]]. now left.
Qed.
Theorem C106_mixed_access_refuted : ~ forall (m : vmodel Z) sccs x,
  well_formed m -> sccs_determine Z zleaf zop m sccs -> solution Z Z (fun t => t) zleaf zop 0%Z m x ->
  forall v dims i t t', In v (vm_readonly (promote m sccs)) -> In (v, dims) (vm_vars m) -> element dims i -> x t v i = x t' v i.
Proof.
  intros C. assert (E : mixed_solution 0%Z 1 [0%Z] = mixed_solution 1%Z 1 [0%Z]); [|discriminate].
  apply (C mixed_model mixed_sccs mixed_solution) with (dims := arr).
  - constructor.
    + repeat constructor; cbn; intros H; repeat destruct H as [H|H]; try discriminate; exact H.
    + intros q [[]|[<-|[<-|[<-|[]]]]]; exists arr; (split; [cbn; tauto|]); [exact reach_one|exact reach_arr|exact reach_zero].
    + intros q [[]|[<-|[<-|[<-|[]]]]]; discriminate.
    + intros k k' q q' w i. apply once_by_match. repeat constructor; cbn; intros H; repeat destruct H as [H|H]; try discriminate; exact H.
    + intros q a Hq Ha. destruct Hq as [<-|[<-|[<-|[]]]]; destruct Ha as [Ha|Ha]; occ Ha; cbn [a_var a_sub a_read ve_points];
        exists arr; (split; [cbn; tauto|]); first [exact reach_one|exact reach_arr|exact reach_zero].
  - intros scc [<-|[<-|[<-|[]]]]; apply explicit_determines; try reflexivity; intros a Ha; occ Ha; discriminate.
  - constructor.
    + intros v dims t t' i [].
    + intros q [].
    + intros q t [<-|[<-|[<-|[]]]] p Hp; cbn; [reflexivity|reflexivity|reflexivity].
  - vm_compute. tauto.
  - cbn. tauto.
  - change (in_boxes [0%Z] (bs_of_points pts)). rewrite of_points_in. now left.
Qed.
Print Assumptions C106_mixed_access_refuted.

(** ** Elements written one by one *)

(** x[0] = 7 and x[1] = 8. Both elements are promotable, so x is made a parameter
    and the equations are taken away; but equations without iterations are not
    copied among the initial ones for an array, and nothing says the values of x
    any more. *)
Definition q_e0 := mkVeq (K := Z) 0 (bs_of_points [[0%Z]]) [] [[]] (at_ 0) (VRead (mkVaccess 0 (at_ 0) (bs_of_points [[0%Z]]))) (VLeaf 7%Z).
Definition q_e1 := mkVeq (K := Z) 0 (bs_of_points [[1%Z]]) [] [[]] (at_ 1) (acc_1 0) (VLeaf 8%Z).
Definition lost_model : vmodel Z := mkVmodel [(0, arr)] [] [] [] [q_e0; q_e1].
Definition lost_sccs : list (list nat) := [[0]; [1]].
Theorem C106_elements_lost_refuted : ~ forall (m : vmodel Z) sccs x,
  well_formed m -> whole_accesses m -> sccs_determine Z zleaf zop m sccs ->
  initial_repeats m -> rest_determines Z zleaf zop m (promote m sccs) sccs ->
  solution Z Z (fun t => t) zleaf zop 0%Z (promote m sccs) x -> solution Z Z (fun t => t) zleaf zop 0%Z m x.
Proof.
  intros C. assert (P : vm_readonly (promote lost_model lost_sccs) = [0] /\ vm_initial (promote lost_model lost_sccs) = [] /\ vm_main (promote lost_model lost_sccs) = [])
    by (vm_compute; repeat split). destruct P as (P1 & P2 & P3).
  assert (Sx : solution Z Z (fun t => t) zleaf zop 0%Z lost_model (fun _ _ _ => 0%Z)).
  { apply (C lost_model lost_sccs).
    - constructor.
      + repeat constructor; cbn; intros H; repeat destruct H as [H|H]; try discriminate; exact H.
      + intros q [[]|[<-|[<-|[]]]]; exists arr; (split; [cbn; tauto|]); [exact reach_zero|exact reach_one].
      + intros q [[]|[<-|[<-|[]]]]; discriminate.
      + intros k k' q q' w i H H' (-> & p & _ & ->) (_ & p' & _ & E).
        destruct k as [|[|k]]; cbn [lost_model vm_main nth_error] in H; [| |now destruct k];
          (destruct k' as [|[|k']]; cbn [lost_model vm_main nth_error] in H'; [| |now destruct k']);
          injection H as <-; injection H' as <-; try reflexivity; discriminate E.
      + intros q a Hq Ha. destruct Hq as [<-|[<-|[]]]; destruct Ha as [Ha|Ha]; occ Ha; cbn [a_var a_sub a_read ve_points];
          exists arr; (split; [cbn; tauto|]); first [exact reach_one|exact reach_zero].
    - intros q a Hq Ha _ p Hp. destruct Hq as [<-|[<-|[]]]; destruct Ha as [Ha|Ha]; occ Ha; cbn [a_var a_sub].
      + exists q_e0. split; [now left|]. split; [reflexivity|]. exists []. split; [now left|reflexivity].
      + exists q_e1. split; [right; now left|]. split; [reflexivity|]. exists []. split; [now left|reflexivity].
    - intros scc [<-|[<-|[]]]; apply explicit_determines; try reflexivity; intros a Ha; occ Ha.
    - intros q p _ _ (q' & [] & _).
    - intros scc S Hs HS. rewrite P1 in HS. intros c x y _ _ _ q w i Hq _. exfalso. apply HS in Hq as (k & _ & Hq & N). apply N. left.
      destruct k as [|[|[|k]]]; cbn in Hq; try discriminate; now injection Hq as <-.
    - constructor.
      + reflexivity.
      + rewrite P2. intros q [].
      + rewrite P3. intros q t []. }
  destruct Sx as [_ _ Sm]. specialize (Sm q_e0 0%Z (or_introl eq_refl) [] (or_introl eq_refl)). discriminate.
Qed.
Print Assumptions C106_elements_lost_refuted.
