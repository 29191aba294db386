(** C33, C34, C35: dependency graphs, order of the components, directions. *)
From Coq Require Import ZArith List Bool Arith Lia Permutation Relations.
From Verif Require Import RangeModel MDRangeModel Spec Result BoxSetModel BoxSetProofs AccessModel AccessSpec AccessProofs AccessInverseProofs
  WritesMapModel LoopModel LoopSpec SchedModel SchedSpec PostOrderProofs SchedProofs DirectionProofs ScheduleProofs.
Import ListNotations.
Local Open Scope nat_scope.

(** Equations for the examples: x is variable 0, y variable 1, both with one
    dimension.
      [chain]    : x[i] = f(x[i - 1], y[i])   for i in [1, 5)
      [source]   : y[i] = f()                 for i in [0, 5)
      [reversed] : x[i] = f(x[i + 1])         for i in [5, 8) *)
Definition at_offset (c : Z) : afun := AFRoto 1 [if Z.eqb c 0 then ADim 0 else AAdd (ADim 0) (AConst c)].
Definition chain : equation := mkEquation 1 [[mkRange 1 5]] [(0, at_offset 0)] [(0, at_offset (-1)); (1, at_offset 0)].
Definition source : equation := mkEquation 1 [[mkRange 0 5]] [(1, at_offset 0)] [].
Definition reversed : equation := mkEquation 1 [[mkRange 5 8]] [(0, at_offset 0)] [(0, at_offset 1)].

Ltac cases H := cbn in H; repeat (destruct H as [H|H]); try (now destruct H); try injection H; intros; subst.

Lemma at_offset_affine : forall c, affine_access mlir0 1 1 (at_offset c).
Proof.
  intros c. apply (affine_from_map mlir0 1 [if Z.eqb c 0 then ADim 0 else AAdd (ADim 0) (AConst c)]).
  - constructor; [|constructor]. destruct (Z.eqb c 0); cbn; auto.
  - constructor; [|constructor]. destruct (Z.eqb c 0); cbn; auto.
  - discriminate.
  - apply (build_roto mlir0 mlir0_ok); [lia| |destruct (Z.eqb c 0); reflexivity].
    constructor; [|constructor]. destruct (Z.eqb_spec c 0); constructor; auto.
Qed.
Lemma offsets_ok : forall e, eq_rank e = 1 -> bs_of 1 (eq_space e) ->
  (forall v f, In (v, f) (eq_writes e ++ eq_reads e) -> exists c, f = at_offset c) ->
  equation_ok mlir0 (fun _ => 1) e /\ single_valued e /\ affine_self_reads mlir0 (fun _ => 1) e.
Proof.
  intros e R S A. apply affine_equation; [apply mlir0_ok|lia|now rewrite R|]. intros v f H. rewrite R. destruct (A v f H) as (c & ->).
  split; [lia|apply at_offset_affine].
Qed.
Lemma one_write : forall e v f, eq_writes e = [(v, f)] -> one_written e /\ same_writes e.
Proof.
  intros e v f E. split.
  - intros v1 f1 v2 f2 H1 H2. rewrite E in *. destruct H1 as [H1|[]], H2 as [H2|[]]. congruence.
  - intros v1 f1 v2 f2 p q H1 H2 _. rewrite E in *. destruct H1 as [H1|[]], H2 as [H2|[]]. injection H1 as <- <-. injection H2 as <- <-. tauto.
Qed.
Lemma examples_ok : forall e, In e [chain; source; reversed] ->
  equation_ok mlir0 (fun _ => 1) e /\ one_written e /\ functions_once e /\ schedulable mlir0 (fun _ => 1) e.
Proof.
  assert (B : forall a b, (a < b)%Z -> bs_of 1 [[mkRange a b]]).
  { intros a b H. repeat constructor; cbn; try discriminate. exact H. }
  intros e He.
  assert (X : eq_rank e = 1 /\ bs_of 1 (eq_space e) /\ (forall v f, In (v, f) (eq_writes e ++ eq_reads e) -> exists c, f = at_offset c) /\ exists v f, eq_writes e = [(v, f)]).
  { cases He; (split; [reflexivity|]; split; [apply B; lia|]; split; [|eexists; eexists; reflexivity]); intros v f H; cases H; eauto. }
  destruct X as (R & S & A & v & f & W). destruct (offsets_ok e R S A) as (E & V & AS). destruct (one_write e v f W) as (O & SW).
  split; [assumption|]. split; [assumption|]. split.
  - intros v' f' H. destruct (A v' f' H) as (c & ->). cbn. destruct (Z.eqb c 0); cbn; repeat constructor; intros [].
  - now constructor.
Qed.

(** * C33 *)

(** Every dependency gives an edge, whatever the accesses and whatever the order
    in which the tasks insert the writes and the edges. *)
Theorem C33_no_missing_edge : forall m vrank eqs ord tasks, mlir_ok m ->
  Forall (equation_ok m vrank) eqs -> Forall one_written eqs ->
  Permutation ord (seq 0 (length eqs)) -> Permutation tasks (seq 0 (length eqs)) ->
  exists g, array_graph eqs ord tasks = Ok g /\
    forall a b ea eb v q, nth_error eqs a = Some ea -> nth_error eqs b = Some eb ->
      reads_index ea v q -> writes_index eb v q -> In (a, b) g.
Proof.
  intros m vrank eqs ord tasks M E O Po Pt. destruct (array_graph_ok m M vrank eqs ord tasks E O Po Pt) as (g & Hg & G & _). eauto.
Qed.
Print Assumptions C33_no_missing_edge.

(** The edges are exactly the dependencies. Missing from the full statement: the
    accesses that use a dimension in two results, such as x[i][i]. *)
Theorem C33_edges_partial : forall m vrank eqs ord tasks, mlir_ok m ->
  Forall (equation_ok m vrank) eqs -> Forall one_written eqs -> Forall functions_once eqs ->
  Permutation ord (seq 0 (length eqs)) -> Permutation tasks (seq 0 (length eqs)) ->
  exists g, array_graph eqs ord tasks = Ok g /\
    forall a b, In (a, b) g <-> exists ea eb v q, nth_error eqs a = Some ea /\ nth_error eqs b = Some eb /\
      reads_index ea v q /\ writes_index eb v q.
Proof.
  intros m vrank eqs ord tasks M E O F Po Pt. destruct (array_graph_ok m M vrank eqs ord tasks E O Po Pt) as (g & Hg & G1 & G2).
  exists g. split; [assumption|]. intros a b. split; [now apply G2|]. intros (ea & eb & v & q & Ha & Hb & Hr & Hw). exact (G1 a b ea eb v q Ha Hb Hr Hw).
Qed.
Print Assumptions C33_edges_partial.

Example C33_edges_example :
  let eqs := [chain; source; reversed] in
  mlir_ok mlir0 /\ Forall (equation_ok mlir0 (fun _ => 1)) eqs /\ Forall one_written eqs /\ Forall functions_once eqs /\
  Permutation [2; 0; 1] (seq 0 (length eqs)) /\ Permutation [1; 2; 0] (seq 0 (length eqs)) /\
  array_graph eqs [2; 0; 1] [1; 2; 0] = Ok [(2, 2); (0, 0); (0, 1)].
Proof.
  cbv zeta. split; [apply mlir0_ok|].
  assert (X := examples_ok). repeat split.
  - apply Forall_forall. intros e He. now apply X.
  - apply Forall_forall. intros e He. now apply X.
  - apply Forall_forall. intros e He. now apply X.
  - apply Permutation_trans with [0; 2; 1]; [apply perm_swap|]. apply perm_skip. apply perm_swap.
  - apply Permutation_trans with [1; 0; 2]; [apply perm_skip, perm_swap|]. apply perm_swap.
Qed.

(** An access x[i][i] is taken as writing the whole square: the reader of
    x[0][1] gets an edge although nothing writes that element. *)
Theorem C33_edges_refuted : exists eqs g vrank,
  Forall (equation_ok mlir0 vrank) eqs /\ Forall one_written eqs /\
  array_graph eqs (seq 0 (length eqs)) (seq 0 (length eqs)) = Ok g /\ In (1, 0) g /\
  ~ exists ea eb v q, nth_error eqs 1 = Some ea /\ nth_error eqs 0 = Some eb /\ reads_index ea v q /\ writes_index eb v q.
Proof.
  pose (w := mkEquation 1 [[mkRange 0 2]] [(0, AFRoto 1 [ADim 0; ADim 0])] []).
  pose (r := mkEquation 1 [[mkRange 0 2]] [(1, at_offset 0)] [(0, AFAffineConstant 1 [AConst 0; AConst 1])]).
  pose (vr := fun v => if Nat.eqb v 0 then 2 else 1). exists [w; r], [(1, 0)], vr.
  assert (B : bs_of 1 [[mkRange 0 2]]) by (repeat constructor; cbn; try discriminate; lia).
  assert (W : affine_access mlir0 1 2 (AFRoto 1 [ADim 0; ADim 0])).
  { apply (affine_from_map mlir0 1 [ADim 0; ADim 0]); [repeat constructor|repeat constructor|discriminate|reflexivity]. }
  assert (R : affine_access mlir0 1 2 (AFAffineConstant 1 [AConst 0; AConst 1])).
  { apply (affine_from_map mlir0 1 [AConst 0; AConst 1]); [repeat constructor|repeat constructor|discriminate|reflexivity]. }
  split; [|split; [|split; [reflexivity|split; [now left|]]]].
  - constructor; [|constructor; [|constructor]]; apply affine_equation; try apply mlir0_ok; try exact B; try (cbn; lia); intros v f H; cases H; cbn; auto using at_offset_affine.
  - constructor; [|constructor; [|constructor]]; eapply one_write; reflexivity.
  - intros (ea & eb & v & q & Ea & Eb & (p & Hp & f & Hf & s & Hs & Hq) & (p' & Hp' & f' & Hf' & s' & Hs' & Hq')).
    injection Ea as <-. injection Eb as <-. cases Hf. cases Hf'. rename Hs into H1. rename Hs' into H2.
    assert (L : length p = 1) by exact (bs_of_length 1 _ p B Hp). assert (L' : length p' = 1) by exact (bs_of_length 1 _ p' B Hp').
    destruct p as [|x [|? ?]]; try discriminate. destruct p' as [|x' [|? ?]]; try discriminate. cbn in H1, H2. injection H1 as <-. injection H2 as <-.
    apply (in_boxes_point q [0%Z; 1%Z]) in Hq. apply (in_boxes_point q [x'; x']) in Hq'. congruence.
Qed.
Print Assumptions C33_edges_refuted.

(** The graph of the scalar equations: its vertices are the indices of the
    equations, and its edges exactly the dependencies between them. Missing from
    the full statement: the accesses to several elements. *)
Theorem C33_scalar_partial : forall m vrank eqs ord, mlir_ok m ->
  Forall (equation_ok m vrank) eqs -> Forall same_writes eqs -> Forall single_valued eqs ->
  let vs := scalar_vertices eqs in
  Permutation ord (seq 0 (length vs)) ->
  (forall d p, In (d, p) vs <-> exists e, nth_error eqs d = Some e /\ eq_writes e <> [] /\ in_boxes p (eq_space e)) /\
  exists g, scalar_graph eqs vs ord = Ok g /\
    forall a b, In (a, b) g <-> exists da pa db pb ea eb v q,
      nth_error vs a = Some (da, pa) /\ nth_error vs b = Some (db, pb) /\
      nth_error eqs da = Some ea /\ nth_error eqs db = Some eb /\
      reads_element ea pa v q /\ writes_element eb pb v q.
Proof.
  intros m vrank eqs ord M E SW SV vs Po.
  assert (V : forall d p, In (d, p) vs <-> exists e, nth_error eqs d = Some e /\ eq_writes e <> [] /\ in_boxes p (eq_space e)).
  { intros d p. unfold vs, scalar_vertices. rewrite in_flat_map. split.
    - intros (d' & _ & H). destruct (nth_error eqs d') as [e|] eqn:Ed; [|destruct H]. destruct (eq_writes e) as [|w ws] eqn:Ew; [destruct H|].
      apply in_map_iff in H as (p' & Ep & Hp). injection Ep as <- <-. exists e. split; [assumption|]. split; [rewrite Ew; discriminate|]. now apply in_bs_points.
    - intros (e & Ed & Ne & Hp). exists d. split; [apply in_seq; assert (d < length eqs) by (apply nth_error_Some; congruence); lia|]. rewrite Ed.
      destruct (eq_writes e) as [|w ws]; [congruence|]. apply in_map_iff. exists p. split; [reflexivity|]. now apply in_bs_points. }
  split; [exact V|]. destruct (scalar_graph_ok m vrank eqs vs ord E SW SV) as (g & Hg & G).
  - apply Forall_forall. intros [d p] Hx. destruct (proj1 (V d p) Hx) as (e & X). exists e. exact X.
  - exact Po.
  - exists g. split; [assumption|]. intros a b. rewrite G. split.
    + intros ([da pa] & [db pb] & ea & eb & v & q & X). exists da, pa, db, pb, ea, eb, v, q. exact X.
    + intros (da & pa & db & pb & ea & eb & v & q & X). exists (da, pa), (db, pb), ea, eb, v, q. exact X.
Qed.
Print Assumptions C33_scalar_partial.

Example C33_scalar_example :
  let eqs := [chain; source] in
  Forall (equation_ok mlir0 (fun _ => 1)) eqs /\ Forall same_writes eqs /\ Forall single_valued eqs /\
  scalar_graph eqs (scalar_vertices eqs) (seq 0 9) = Ok [(0, 5); (1, 0); (1, 6); (2, 1); (2, 7); (3, 2); (3, 8)].
Proof.
  cbv zeta. assert (X : forall e, In e [chain; source] -> schedulable mlir0 (fun _ => 1) e) by (intros e He; apply examples_ok; cases He; cbn; auto).
  repeat split; apply Forall_forall; intros e He; now apply X.
Qed.

(** An access to several elements is compared with each written element for
    equality: x[i] = f(x[i+1], x[i+2]) gets no edges, although it reads what
    the next iterations write. *)
Definition next_two : afun := AFGeneric 1 [DAdd (DDim 0) (DRange (mkRange 1 3))].
Theorem C33_scalar_refuted : exists e, equation_ok mlir0 (fun _ => 1) e /\ same_writes e /\
  scalar_graph [e] (scalar_vertices [e]) (seq 0 (length (scalar_vertices [e]))) = Ok [] /\
  scalar_vertices [e] = [(0, [0%Z]); (0, [1%Z]); (0, [2%Z])] /\
  exists v q, reads_element e [0%Z] v q /\ writes_element e [1%Z] v q.
Proof.
  exists (mkEquation 1 [[mkRange 0 3]] [(0, at_offset 0)] [(0, next_two)]).
  assert (B : bs_of 1 [[mkRange 0 3]]) by (repeat constructor; cbn; try discriminate; lia).
  split; [|split; [eapply one_write; reflexivity|split; [reflexivity|split; [reflexivity|]]]].
  - constructor; cbn [eq_rank eq_space eq_writes eq_reads]; [lia|exact B| |].
    + intros v f H. split; [lia|]. cases H; [apply affine_built, at_offset_affine|].
      apply (built_from_accesses mlir0 1 [DAdd (DDim 0) (DRange (mkRange 1 3))]); [repeat constructor|reflexivity].
    + intros v f p H Hp. assert (L : length p = 1) by exact (bs_of_length 1 _ p B Hp). destruct p as [|x [|? ?]]; try discriminate.
      apply in_bs_points in Hp. cases H; cases Hp; cbn; (eexists; split; [reflexivity|]); repeat constructor; cbn; try discriminate; lia.
  - exists 0, [1%Z]. split.
    + exists next_two. split; [now left|]. eexists. split; [reflexivity|]. eexists. split; [now left|]. repeat constructor; cbn; lia.
    + exists (at_offset 0). split; [now left|]. eexists. split; [reflexivity|]. eexists. split; [now left|]. repeat constructor; cbn; lia.
Qed.
Print Assumptions C33_scalar_refuted.

(** An access to the matched variable whose indices are all among the matched
    ones counts as a write: x[i] = f(x[3]) for i in [0, 5), matched with x[i], gets
    no edge to itself and can be executed in any order, although every iteration
    accesses, besides its own element, the one of the iteration 3. *)
Theorem C33_self_refuted : exists q e,
  op_accesses q = [(0, at_offset 0); (0, AFAffineConstant 1 [AConst 3])] /\ op_matched q = 0 /\
  op_space q = [[mkRange 0 5]] /\ op_indices q = [[mkRange 0 5]] /\
  bridge mlir0 q = Ok e /\ array_graph [e] [0] [0] = Ok [] /\ getSchedulingDirections mlir0 e = Ok [PAny] /\
  forall i, in_boxes [i] (op_space q) ->
    accesses (AFAffineConstant 1 [AConst 3]) [i] [3%Z] /\ accesses (at_offset 0) [3%Z] [3%Z].
Proof.
  exists (mkEqop 1 [[mkRange 0 5]] [(0, at_offset 0); (0, AFAffineConstant 1 [AConst 3])] 0 [[mkRange 0 5]]).
  eexists. repeat (split; [reflexivity|]). intros i _. split.
  - eexists. split; [reflexivity|]. now apply (in_boxes_point [3%Z] [3%Z]).
  - eexists. split; [reflexivity|]. now apply (in_boxes_point [3%Z] [3%Z]).
Qed.
Print Assumptions C33_self_refuted.

(** With matched indices, every access is a write access or a read access and
    none is both; the accesses to the other variables are read accesses. *)
Theorem C33_classification : forall q ws rs, op_indices q <> [] ->
  getWriteAccesses q = Ok ws -> getReadAccesses q = Ok rs ->
  (forall a, In a (op_accesses q) -> In a ws \/ In a rs) /\
  (forall a, In a ws -> ~ In a rs) /\
  (forall a, In a ws -> In a (op_accesses q) /\ fst a = op_matched q) /\
  (forall a, In a rs -> In a (op_accesses q)) /\
  (forall a, In a (op_accesses q) -> fst a <> op_matched q -> In a rs) /\
  (forall a s, In a (op_accesses q) -> fst a = op_matched q -> af_map_set (snd a) (op_space q) = Ok s ->
     (In a ws <-> forall x, in_boxes x s -> in_boxes x (op_indices q))).
Proof.
  intros q ws rs Ni Hw Hr. apply filter_res_in in Hw, Hr. destruct Hw as (W & Tw), Hr as (R & Tr).
  assert (Ne : bs_empty (op_indices q) = false) by (destruct (op_indices q); [congruence|reflexivity]).
  assert (X : forall a, In a (op_accesses q) ->
    (fst a <> op_matched q /\ is_write_access q a = Ok false /\ is_read_access q a = Ok true) \/
    (fst a = op_matched q /\ exists s, af_map_set (snd a) (op_space q) = Ok s /\ is_write_access q a = Ok (bs_contains (op_indices q) s) /\
       is_read_access q a = Ok (negb (bs_contains (op_indices q) s)))).
  { intros a Ha. destruct (Tw a Ha) as (b & Hb). unfold is_write_access, is_read_access in *. destruct (Nat.eqb_spec (fst a) (op_matched q)) as [E|E]; cbn [negb] in *; [|auto].
    right. split; [assumption|]. destruct (af_map_set (snd a) (op_space q)) as [s| |]; try discriminate. exists s. split; [reflexivity|]. cbn. rewrite Ne. cbn.
    split; [reflexivity|]. destruct s as [|b0 s]; cbn [bs_empty negb andb]; [|reflexivity].
    assert (C : bs_contains (op_indices q) [] = true) by (apply bs_contains_spec; intros x (b1 & [] & _)). rewrite C. reflexivity. }
  split; [|split; [|split; [|split; [|split]]]].
  - intros a Ha. rewrite W, R. destruct (X a Ha) as [(_ & _ & H)|(_ & s & _ & H1 & H2)]; [auto|]. rewrite H1, H2. destruct (bs_contains (op_indices q) s); auto.
  - intros a. rewrite W, R. intros (Ha & H1) (_ & H2). destruct (X a Ha) as [(_ & H & _)|(_ & s & _ & H3 & H4)]; [congruence|].
    rewrite H3 in H1. rewrite H4 in H2. destruct (bs_contains (op_indices q) s); discriminate.
  - intros a. rewrite W. intros (Ha & H). split; [assumption|]. destruct (X a Ha) as [(_ & H' & _)|(E & _)]; [congruence|assumption].
  - intros a. rewrite R. tauto.
  - intros a Ha E. rewrite R. split; [assumption|]. destruct (X a Ha) as [(_ & _ & H)|(E' & _)]; [assumption|contradiction].
  - intros a s Ha E Hs. rewrite W. destruct (X a Ha) as [(E' & _)|(_ & s' & Hs' & H & _)]; [contradiction|]. rewrite Hs in Hs'. injection Hs' as <-. rewrite H, <- bs_contains_spec.
    split; [intros (_ & H'); congruence|intros ->; auto].
Qed.
Print Assumptions C33_classification.

Example C33_classification_example :
  let q := mkEqop 1 [[mkRange 1 5]] [(0, at_offset 0); (0, at_offset (-1)); (1, at_offset 0)] 0 [[mkRange 1 5]] in
  op_indices q <> [] /\ getWriteAccesses q = Ok [(0, at_offset 0)] /\ getReadAccesses q = Ok [(0, at_offset (-1)); (1, at_offset 0)]
  /\ bridge mlir0 q = Ok chain.
Proof. cbv zeta. repeat split. discriminate. Qed.

(** * C34 *)

(** The order of the components: each one once, and after each component it
    depends on, unless the latter depends on it as well. *)
Theorem C34_order : forall sccs deps, NoDup (concat sccs) ->
  (forall x y, In x (concat sccs) -> In y (deps x) -> In y (concat sccs)) ->
  exists r, scc_order sccs deps = Ok r /\ Permutation r (seq 0 (length sccs)) /\
    forall a b, component_depends sccs deps a b -> ~ reaches (component_depends sccs deps) b a -> precedes r b a.
Proof.
  intros sccs deps N D. destruct (scc_order_ok sccs deps N D) as (r & Hr & P & O). exists r. split; [assumption|]. split; [assumption|].
  intros a b H Nr. destruct (O a b H); [assumption|contradiction].
Qed.
Print Assumptions C34_order.

Definition deps_example (x : nat) : list nat :=
  match x with 0 => [3; 1] | 1 => [2] | 2 => [1; 4] | 3 => [4; 3] | _ => [] end.
Example C34_order_example :
  let sccs := [[0]; [1; 2]; [3]; [4]] in
  NoDup (concat sccs) /\ (forall x y, In x (concat sccs) -> In y (deps_example x) -> In y (concat sccs)) /\
  scc_order sccs deps_example = Ok [3; 2; 1; 0].
Proof.
  cbv zeta. split; [repeat constructor; cbn; intuition discriminate|]. split; [|reflexivity].
  intros x y Hx Hy. cases Hx; cases Hy; cbn; auto 9.
Qed.

(** A dependency on an equation of no component is undefined behaviour. *)
Theorem C34_outside_refuted : exists sccs deps, NoDup (concat sccs) /\ scc_order sccs deps = Bad.
Proof. exists [[0]], (fun _ => [1]). split; [repeat constructor; intros []|reflexivity]. Qed.
Print Assumptions C34_outside_refuted.

(** The schedule: the instances are those of the components, each as many times
    as there; the equations of a component with several equations are in one
    block; the entries of a component come after all those of the components it
    depends on. Missing from the full statement: see [schedulable]. *)
Theorem C34_schedule_partial : forall m vrank eqs sccs deps, mlir_ok m ->
  NoDup (concat sccs) -> Forall (fun s => s <> []) sccs ->
  (forall x y, In x (concat sccs) -> In y (deps x) -> In y (concat sccs)) ->
  (forall x, In [x] sccs -> schedulable m vrank (eqs x)) ->
  exists l, schedule m eqs sccs deps = Ok l /\
    Permutation (instances l) (all_instances eqs (concat sccs)) /\
    (forall scc, In scc sccs -> 2 <= length scc -> exists blk, In blk l /\ map (fun y => fst (fst y)) blk = scc) /\
    forall a b s t x y p q k k' ds ds', component_depends sccs deps a b -> ~ reaches (component_depends sccs deps) b a ->
      nth_error sccs a = Some s -> nth_error sccs b = Some t -> In x s -> In y t ->
      executes l k x p ds -> executes l k' y q ds' -> k' < k.
Proof.
  intros m vrank eqs sccs deps M N Ne D S. destruct (schedule_ok m M vrank eqs sccs deps N Ne D S) as (l & Hl & P & B & O & _). exists l. auto.
Qed.
Print Assumptions C34_schedule_partial.

(** * C35 *)

(** The directions of an equation: an iteration differs from the ones it depends
    on only in dimensions with a direction, which puts the latter first; in the
    dimensions without direction they are equal. Missing from the full
    statement: reads of the written variable that are not affine. *)
Theorem C35_directions_partial : forall m vrank e, mlir_ok m ->
  equation_ok m vrank e -> same_writes e -> affine_self_reads m vrank e ->
  exists ds, getSchedulingDirections m e = Ok ds /\ length ds = eq_rank e /\
    (~ In PScalar ds -> forall i j, iteration_depends e i j ->
      (forall d x y, nth_error i d = Some x -> nth_error j d = Some y ->
         match nth_error ds d with
         | Some PForward => (y <= x)%Z
         | Some PBackward => (x <= y)%Z
         | _ => y = x
         end) /\
      forall any, executed_before any 0 (map direction_of ds) j i).
Proof.
  intros m vrank e M E SW AS. destruct (directions_ok m M vrank e E SW AS) as (ds & Hds & L & A). exists ds. split; [assumption|]. split; [assumption|].
  intros NS i j H. pose proof H as (Nij & Hi & Hj & _). pose proof (space_boxes m vrank e E) as Sp.
  pose proof (bs_of_length _ _ i Sp Hi) as Li. pose proof (bs_of_length _ _ j Sp Hj) as Lj. specialize (A i j H). split.
  - intros d x y Hx Hy. assert (Hd : d < length ds) by (rewrite L, <- Li; apply nth_error_Some; congruence).
    destruct (nth_error ds d) as [k|] eqn:Ek; [|apply nth_error_None in Ek; lia]. specialize (A d k x y Ek Hx Hy).
    destruct k; cbn in A; auto. exfalso. apply NS. eapply nth_error_In; eassumption.
  - intros any. apply allowed_before; try congruence; try assumption. apply Forall_forall. intros k Hk ->. contradiction.
Qed.
Print Assumptions C35_directions_partial.

Example C35_directions_example :
  equation_ok mlir0 (fun _ => 1) chain /\ same_writes chain /\ affine_self_reads mlir0 (fun _ => 1) chain /\
  getSchedulingDirections mlir0 chain = Ok [PForward] /\ getSchedulingDirections mlir0 reversed = Ok [PBackward] /\
  getSchedulingDirections mlir0 source = Ok [PAny] /\ iteration_depends chain [3%Z] [2%Z].
Proof.
  destruct (examples_ok chain (or_introl eq_refl)) as (E & _ & _ & [_ SW _ AS]). repeat (split; [assumption || reflexivity|]).
  repeat split.
  - discriminate.
  - eexists. split; [now left|]. repeat constructor; cbn; lia.
  - eexists. split; [now left|]. repeat constructor; cbn; lia.
  - exists 0, [2%Z]. split.
    + exists (at_offset (-1)). split; [now left|]. eexists. split; [reflexivity|]. eexists. split; [now left|]. repeat constructor; cbn; lia.
    + exists (at_offset 0). split; [now left|]. eexists. split; [reflexivity|]. eexists. split; [now left|]. repeat constructor; cbn; lia.
Qed.

(** The whole schedule: in the part of an equation that is a component, an
    iteration comes after the ones it depends on, in an earlier entry or earlier
    in the loop of the same entry, whatever the order of the dimensions without
    direction; unless the two depend on each other. *)
Theorem C35_schedule_partial : forall m vrank eqs sccs deps, mlir_ok m ->
  NoDup (concat sccs) -> Forall (fun s => s <> []) sccs ->
  (forall x y, In x (concat sccs) -> In y (deps x) -> In y (concat sccs)) ->
  (forall x, In [x] sccs -> schedulable m vrank (eqs x)) ->
  exists l, schedule m eqs sccs deps = Ok l /\
    forall x i j k k' ds ds', In [x] sccs -> iteration_depends (eqs x) i j -> ~ reaches (iteration_depends (eqs x)) j i ->
      executes l k x i ds -> executes l k' x j ds' ->
      k' < k \/ (k' = k /\ ds' = ds /\ forall any, executed_before any 0 ds j i).
Proof.
  intros m vrank eqs sccs deps M N Ne D S. destruct (schedule_ok m M vrank eqs sccs deps N Ne D S) as (l & Hl & _ & _ & _ & O). exists l. split; [assumption|].
  intros x i j k k' ds ds' Hx Hd Nr Hi Hj. destruct (O x i j k k' ds ds' Hx Hd Hi Hj) as [H|[H|H]]; auto. contradiction.
Qed.
Print Assumptions C35_schedule_partial.

(** x[i] = f(x[2 * i]) for i in [1, 5), as variable 2 of the examples, has no
    directions: its indices are scheduled one by one. *)
Definition double : afun := AFGeneric 1 [DMul (DDim 0) (DConst 2)].
Definition doubled : equation := mkEquation 1 [[mkRange 1 5]] [(2, at_offset 0)] [(2, double)].
Lemma doubled_ok : schedulable mlir0 (fun _ => 1) doubled.
Proof.
  destruct (one_write doubled 2 (at_offset 0) eq_refl) as (O & SW). destruct (affine_equation mlir0 (fun _ => 1) doubled) as (E & V & AS).
  - apply mlir0_ok.
  - cbn. lia.
  - repeat constructor; cbn; discriminate.
  - intros v f H. split; [lia|]. cases H; [apply at_offset_affine|].
    apply (affine_from_map mlir0 1 [AMul (ADim 0) (AConst 2)]); [repeat constructor|repeat constructor|discriminate|reflexivity].
  - now constructor.
Qed.
Definition equations_example (x : nat) : equation := match x with 0 => chain | 1 => source | 2 => reversed | _ => doubled end.
Example C35_schedule_example :
  let sccs := [[0]; [1]; [2]; [3]; [4; 5]] in
  let deps := fun x => match x with 0 => [0; 1] | 2 => [2] | 3 => [3] | 4 => [5] | 5 => [4] | _ => [] end in
  NoDup (concat sccs) /\ Forall (fun s => s <> []) sccs /\
  (forall x y, In x (concat sccs) -> In y (deps x) -> In y (concat sccs)) /\
  (forall x, In [x] sccs -> schedulable mlir0 (fun _ => 1) (equations_example x)) /\
  schedule mlir0 equations_example sccs deps =
    Ok [[(1, [[mkRange 0 5]], [DirAny])]; [(0, [[mkRange 1 5]], [DirForward])]; [(2, [[mkRange 5 8]], [DirBackward])];
        [(3, [[mkRange 4 5]], [DirAny])]; [(3, [[mkRange 2 3]], [DirAny])]; [(3, [[mkRange 1 2]], [DirAny])]; [(3, [[mkRange 3 4]], [DirAny])];
        [(4, [[mkRange 1 5]], [DirUnknown]); (5, [[mkRange 1 5]], [DirUnknown])]].
Proof.
  cbv zeta. split; [repeat constructor; cbn; intuition discriminate|]. split; [repeat constructor; discriminate|]. split; [|split; [|reflexivity]].
  - intros x y Hx Hy. cases Hx; cases Hy; cbn; auto 9.
  - intros x Hx. cases Hx; try discriminate; try exact doubled_ok; apply examples_ok; cbn; auto.
Qed.
