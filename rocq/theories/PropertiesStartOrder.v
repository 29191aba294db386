(** C110: the start values in the schedule of the initial model.

    The schedule of the initial model has the start equations among the blocks
    that solve the initial equations. A user relies on a start value being
    computed from the initial values of the parameters it depends on, and on not
    overwriting what an initial equation gives. *)
From Coq Require Import List Arith Bool Lia ZArith.
Import ListNotations.
From Verif Require Import StartOrderModel StartOrderSpec StartOrderProofs.

(** All the blocks and all the start equations are there once, the blocks in
    their order. *)
Theorem C110_once : forall sccs es,
  NoDup (initial_block sccs es) /\
  (forall p, In (ISCC p) (initial_block sccs es) <-> p < length sccs) /\
  (forall k, In (IStart k) (initial_block sccs es) <-> k < length es) /\
  (forall p q, p < q -> q < length sccs -> before (ISCC p) (ISCC q) (initial_block sccs es)).
Proof.
  intros sccs es. destruct (block_wf sccs es) as [A B C D]. auto.
Qed.
Print Assumptions C110_once.

(** A start equation comes after every block that computes what it reads. *)
Theorem C110_after_dependencies : forall sccs es k e r q,
  nth_error es k = Some e -> In r (st_reads e) -> scc_writes sccs q r ->
  before (ISCC q) (IStart k) (initial_block sccs es).
Proof. exact after_dependencies. Qed.
Print Assumptions C110_after_dependencies.

(** The warning is given exactly if the start equation cannot come before the
    blocks that write its variable. Without it, it does. *)
Theorem C110_warning : forall sccs e, warned sccs e = true <-> conflict sccs e.
Proof. exact warned_conflict. Qed.
Print Assumptions C110_warning.

Theorem C110_before_writers : forall sccs es k e i q,
  nth_error es k = Some e -> ~ conflict sccs e -> scc_writes sccs q (st_var e, i) ->
  before (IStart k) (ISCC q) (initial_block sccs es).
Proof.
  intros sccs es k e i q E Hc Hq.
  exact (before_writers sccs es k e i q E (not_conflict_warned sccs e Hc) Hq).
Qed.
Print Assumptions C110_before_writers.

(** So at the end an element that only this start equation sets has the value of
    its expression, with the values everything has at the end. Missing is the
    case of an expression that reads what other start equations set: see
    [C110_chain_refuted]. *)
Theorem C110_start_value_partial : forall V (solve : nat -> values V -> values V) expr
    sccs es k e c s,
  solves_own solve sccs -> reads_only expr es ->
  nth_error es k = Some e -> In c (st_writes e) ->
  (forall q, ~ scc_writes sccs q c) ->
  (forall j, j <> k -> ~ start_writes es j c) ->
  (forall r j, In r (st_reads e) -> ~ start_writes es j r) ->
  let final := run_block solve expr es (initial_block sccs es) s in
  final c = expr k c final.
Proof. intros V. exact (@start_value V). Qed.
Print Assumptions C110_start_value_partial.

(** And an element that one block solves for has the value that block gives,
    unless there was a warning. *)
Theorem C110_computed_partial : forall V (solve : nat -> values V -> values V) expr
    sccs es p c s,
  solves_own solve sccs -> scc_writes sccs p c ->
  (forall q, q <> p -> ~ scc_writes sccs q c) ->
  (forall k e, nth_error es k = Some e -> In c (st_writes e) ->
     ~ conflict sccs e /\ fst c = st_var e) ->
  exists u v, initial_block sccs es = u ++ ISCC p :: v /\
    run_block solve expr es (initial_block sccs es) s c
    = solve p (run_block solve expr es u s) c.
Proof.
  intros V solve expr sccs es p c s Hs Hw Hq Hk.
  apply computed_kept; try assumption. intros k e E Hc. destruct (Hk k e E Hc) as (A & B).
  split; [exact (not_conflict_warned sccs e A) | exact B].
Qed.
Print Assumptions C110_computed_partial.

(** ** An example *)

(** A parameter p = 3 (variable 0, block 0), a state x (variable 1) with the start
    value p + 1 and the initial equation x = 7 (block 1), and y (variable 2) with
    the start value 2 * p. *)
Local Open Scope Z_scope.
Definition ex_sccs : list scc := [mkScc [(0%nat, 0%nat)]; mkScc [(1%nat, 0%nat)]].
Definition ex_starts : list start :=
  [mkStart [(0%nat, 0%nat)] 1 [(1%nat, 0%nat)]; mkStart [(0%nat, 0%nat)] 2 [(2%nat, 0%nat)]].
Definition put (c : cell) (z : Z) (s : values Z) : values Z :=
  fun d => if cell_eqb d c then z else s d.
Definition ex_solve (p : nat) (s : values Z) : values Z :=
  match p with
  | 0%nat => put (0%nat, 0%nat) 3 s
  | 1%nat => put (1%nat, 0%nat) 7 s
  | _ => s
  end.
Definition ex_expr (k : nat) (_ : cell) (s : values Z) : Z :=
  match k with
  | 0%nat => s (0%nat, 0%nat) + 1
  | 1%nat => 2 * s (0%nat, 0%nat)
  | _ => 0
  end.

Lemma put_other : forall c z s d, d <> c -> put c z s d = s d.
Proof.
  intros c z s d N. unfold put. destruct (cell_eqb d c) eqn:E; [| reflexivity].
  apply cell_eqb_spec in E. contradiction.
Qed.

Lemma ex_own : solves_own ex_solve ex_sccs.
Proof.
  intros p s c H. destruct p as [| [| p]]; cbn [ex_solve]; [| | reflexivity];
    apply put_other; intros ->; apply H; eexists; (split; [reflexivity | left; reflexivity]).
Qed.

Lemma ex_reads : reads_only ex_expr ex_starts.
Proof.
  intros k e c s s' E H. destruct k as [| [| k]]; cbn in E |- *; [| | destruct k; discriminate];
    injection E as <-; rewrite (H (0%nat, 0%nat)); (reflexivity || (left; reflexivity)).
Qed.

Lemma ex_no_conflict : ~ conflict ex_sccs (mkStart [(0%nat, 0%nat)] 1 [(1%nat, 0%nat)]).
Proof. intros H. apply C110_warning in H. vm_compute in H. discriminate. Qed.

Example C110_block_case :
  initial_block ex_sccs ex_starts = [ISCC 0; IStart 1; IStart 0; ISCC 1].
Proof. reflexivity. Qed.

Example C110_start_case : forall s,
  let final := run_block ex_solve ex_expr ex_starts (initial_block ex_sccs ex_starts) s in
  final (2%nat, 0%nat) = 2 * final (0%nat, 0%nat).
Proof.
  intros s. apply (C110_start_value_partial Z ex_solve ex_expr ex_sccs ex_starts 1
    (mkStart [(0%nat, 0%nat)] 2 [(2%nat, 0%nat)]) (2%nat, 0%nat) s ex_own ex_reads eq_refl).
  - left; reflexivity.
  - intros q (x & E & H). destruct q as [| [| q]]; cbn in E; [| | destruct q; discriminate];
      injection E as <-; destruct H as [H | []]; discriminate.
  - intros j N (x & E & H). destruct j as [| [| j]]; cbn in E; [| | destruct j; discriminate];
      [| congruence]. injection E as <-. destruct H as [H | []]; discriminate.
  - intros r j [<- | []] (x & E & H). destruct j as [| [| j]]; cbn in E;
      [| | destruct j; discriminate]; injection E as <-; destruct H as [H | []]; discriminate.
Qed.

Example C110_computed_case : forall s,
  run_block ex_solve ex_expr ex_starts (initial_block ex_sccs ex_starts) s (1%nat, 0%nat) = 7.
Proof.
  intros s. destruct (C110_computed_partial Z ex_solve ex_expr ex_sccs ex_starts 1
    (1%nat, 0%nat) s ex_own) as (u & v & _ & ->).
  - eexists. split; [reflexivity | left; reflexivity].
  - intros q N (x & E & H). destruct q as [| [| q]]; cbn in E; [| | destruct q; discriminate];
      [| congruence]. injection E as <-. destruct H as [H | []]; discriminate.
  - intros k e E H. destruct k as [| [| k]]; cbn in E; [| | destruct k; discriminate];
      injection E as <-.
    + split; [exact ex_no_conflict | reflexivity].
    + destruct H as [H | []]; discriminate.
  - reflexivity.
Qed.

(** ** Start values that depend on start values *)

(** Start equations that read nothing the blocks compute are put in the reverse
    of their order, whatever they read from each other. *)
Theorem C110_reversed : forall sccs es j k ej ek,
  nth_error es j = Some ej -> nth_error es k = Some ek -> (j < k)%nat ->
  (forall r q, In r (st_reads ej) -> ~ scc_writes sccs q r) ->
  (forall r q, In r (st_reads ek) -> ~ scc_writes sccs q r) ->
  before (IStart k) (IStart j) (initial_block sccs es).
Proof.
  intros sccs es j k ej ek Ej Ek L Hj Hk. apply (placed_reversed sccs es j k ej ek Ej Ek L).
  rewrite (no_dependency sccs ej Hj), (no_dependency sccs ek Hk). reflexivity.
Qed.
Print Assumptions C110_reversed.

(** Without the premise on start equations of [C110_start_value_partial]: with
    p(start = 3) and x(start = p), in this order, x gets what p was before. *)
Definition chain_starts : list start :=
  [mkStart [] 0 [(0%nat, 0%nat)]; mkStart [(0%nat, 0%nat)] 1 [(1%nat, 0%nat)]].
Definition chain_expr (k : nat) (_ : cell) (s : values Z) : Z :=
  match k with 0%nat => 3 | _ => s (0%nat, 0%nat) end.

Theorem C110_chain_refuted : ~ forall (solve : nat -> values Z -> values Z) expr
    sccs es k e c s,
  solves_own solve sccs -> reads_only expr es ->
  nth_error es k = Some e -> In c (st_writes e) ->
  (forall q, ~ scc_writes sccs q c) ->
  (forall j, j <> k -> ~ start_writes es j c) ->
  (forall r, In r (st_reads e) -> ~ start_writes es k r) ->
  let final := run_block solve expr es (initial_block sccs es) s in
  final c = expr k c final.
Proof.
  intros C. specialize (C (fun _ s => s) chain_expr [mkScc [(2%nat, 0%nat)]] chain_starts 1%nat
    (mkStart [(0%nat, 0%nat)] 1 [(1%nat, 0%nat)]) (1%nat, 0%nat) (fun _ => 0)).
  cbv zeta in C.
  assert (H : run_block (fun _ s => s) chain_expr chain_starts
    (initial_block [mkScc [(2%nat, 0%nat)]] chain_starts) (fun _ => 0) (1%nat, 0%nat) = 0)
    by reflexivity.
  rewrite H in C. assert (F : 0 = 3); [| discriminate F]. apply C.
  - intros p s c _. reflexivity.
  - intros k e c s s' E Hr. destruct k as [| [| k]]; cbn in E |- *;
      [reflexivity | | destruct k; discriminate].
    injection E as <-. apply Hr. left; reflexivity.
  - reflexivity.
  - left; reflexivity.
  - intros q (x & E & Hx). destruct q as [| q]; cbn in E; [| destruct q; discriminate].
    injection E as <-. destruct Hx as [Hx | []]; discriminate.
  - intros j N (x & E & Hx). destruct j as [| [| j]]; cbn in E; [| congruence | destruct j; discriminate].
    injection E as <-. destruct Hx as [Hx | []]; discriminate.
  - intros r [<- | []] (x & E & Hx). cbn in E. injection E as <-.
    destruct Hx as [Hx | []]; discriminate.
Qed.
Print Assumptions C110_chain_refuted.

(** Without the premise on conflicts of [C110_computed_partial]: the start value
    replaces what the initial equation gave; there is only the warning. x = 7 is
    block 0, p = x - 4 is block 1, and x has the start value p. *)
Theorem C110_overwritten_refuted : ~ forall (solve : nat -> values Z -> values Z) expr
    sccs es p c s,
  solves_own solve sccs -> scc_writes sccs p c ->
  (forall q, q <> p -> ~ scc_writes sccs q c) ->
  (forall k e, nth_error es k = Some e -> In c (st_writes e) -> fst c = st_var e) ->
  exists u v, initial_block sccs es = u ++ ISCC p :: v /\
    run_block solve expr es (initial_block sccs es) s c
    = solve p (run_block solve expr es u s) c.
Proof.
  intros C. specialize (C
    (fun p s => match p with
                | 0%nat => put (0%nat, 0%nat) 7 s
                | 1%nat => put (1%nat, 0%nat) (s (0%nat, 0%nat) - 4) s
                | _ => s end)
    (fun _ _ s => s (1%nat, 0%nat))
    [mkScc [(0%nat, 0%nat)]; mkScc [(1%nat, 0%nat)]]
    [mkStart [(1%nat, 0%nat)] 0 [(0%nat, 0%nat)]] 0%nat (0%nat, 0%nat) (fun _ => 0)).
  destruct C as (u & v & E & C).
  - intros p s c H. destruct p as [| [| p]]; [| | reflexivity];
      apply put_other; intros ->; apply H; eexists; (split; [reflexivity | left; reflexivity]).
  - eexists. split; [reflexivity | left; reflexivity].
  - intros q N (x & Ex & Hx). destruct q as [| [| q]]; cbn in Ex; [congruence | | destruct q; discriminate].
    injection Ex as <-. destruct Hx as [Hx | []]; discriminate.
  - intros k e Ex Hx. destruct k as [| k]; cbn in Ex; [| destruct k; discriminate].
    injection Ex as <-. reflexivity.
  - vm_compute in C. discriminate.
Qed.
Print Assumptions C110_overwritten_refuted.
