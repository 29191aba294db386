(** * Properties of calls and default values: C98 and C99

    The lowering of calls and of default values ([CallModel.v]) against what a
    call means ([CallSpec.v]). *)
From Coq Require Import ZArith List Bool Arith Lia.
From Verif Require Import Result WritesMapModel CallModel CallSpec CallProofs.
Import ListNotations.
Local Open Scope nat_scope.

(** function f: input 0; input 1 = x0 + 1; input 2 = x1 + x0; output 3 = 7;
    protected 4 = x5 + x3; protected 5 = x3. *)
Definition ex_fun : cfun :=
  {| f_vars := [(0, IOInput); (1, IOInput); (2, IOInput); (3, IOOutput); (4, IONone); (5, IONone)];
     f_defaults := [(2, CBin 0 (CGet 1) (CGet 0)); (1, CBin 0 (CGet 0) (CNum 1)); (4, CBin 0 (CGet 5) (CGet 3));
                    (3, CNum 7); (5, CGet 3)];
     f_algs := [[(3, CBin 0 (CGet 4) (CGet 0))]; [(3, CBin 0 (CGet 3) (CGet 3))]] |}.
Definition ex_rank (x : nat) : nat := match x with 0 => 0 | 1 => 1 | 2 => 2 | 3 => 0 | 5 => 1 | _ => 2 end.
Definition plus_only : nat -> Z -> Z -> Z := fun _ a b => (a + b)%Z.

Example ex_fun_declared : well_declared ex_fun /\ acyclic (f_defaults ex_fun).
Proof.
  split.
  - split; [|split].
    + cbn. repeat constructor; cbn; lia.
    + cbn. repeat constructor; cbn; lia.
    + cbn. intros x d y [E|[E|[E|[E|[E|[]]]]]]; injection E as <- <-; cbn; intuition.
  - exists ex_rank. cbn. intros x d y [E|[E|[E|[E|[E|[]]]]]]; injection E as <- <-; cbn; intros H.
    + destruct H as [<-|[<-|[]]]; cbn; lia.
    + destruct H as [<-|[]]; cbn; lia.
    + destruct H as [<-|[<-|[]]]; cbn; lia.
    + destruct H.
    + destruct H as [<-|[]]; cbn; lia.
Qed.

(** ** C98: arguments *)

(** The check of a call accepts exactly the legal calls. *)
Theorem C98_check : forall f c, well_declared f -> (verify_call f c = true <-> legal_call f c).
Proof. exact verify_legal. Qed.
Print Assumptions C98_check.

(** Every input has the value the language gives it, whatever the addresses of
    the variables; the value is unique.  Missing: calls in which all arguments
    are given by name in another order, see [C98_named_order_refuted]. *)
Theorem C98_call_inputs_partial : forall I addr f c env,
  well_declared f -> acyclic (f_defaults f) -> legal_call f c ->
  length (c_args c) <> length (inputs f) \/ c_names c = None \/ c_names c = Some (inputs f) ->
  exists args, call_args addr f c = Ok args /\
    forall x, In x (inputs f) -> exists a, passed f args x = Some a /\
      input_value I f c env x (ceval I env a) /\ forall v, input_value I f c env x v -> v = ceval I env a.
Proof.
  intros I addr f c env W A L H. destruct (call_args_ok I addr f c env W A L H) as (args & E & K).
  exists args. split; auto. intros x Hx. destruct (K x Hx) as (a & P & V). exists a. split; auto. split; auto.
  intros v Hv. apply (value_unique I f c env W A L x); auto.
Qed.
Print Assumptions C98_call_inputs_partial.
(** f(x0 = v + 2), f(9, x2 = ...): x1 and x2 are computed in the order of the
    defaults, although declared in the opposite one and at any address. *)
Example C98_call_inputs_example :
  let c := {| c_args := [CBin 0 (CGet 8) (CNum 2)]; c_names := Some [0] |} in
  let c2 := {| c_args := [CNum 5; CNum 9]; c_names := Some [2; 0] |} in
  legal_call ex_fun c /\ legal_call ex_fun c2 /\
  option_map (ceval plus_only (fun _ => 10%Z))
    (match call_args (fun x => 10 - x) ex_fun c with Ok args => passed ex_fun args 2 | _ => None end) = Some 25%Z /\
  option_map (ceval plus_only (fun _ => 10%Z))
    (match call_args (fun x => x) ex_fun c2 with Ok args => passed ex_fun args 1 | _ => None end) = Some 10%Z.
Proof.
  cbn zeta. split; [|split; [|split]].
  - apply C98_check; [apply ex_fun_declared|]. vm_compute. auto.
  - apply C98_check; [apply ex_fun_declared|]. vm_compute. auto.
  - vm_compute. auto.
  - vm_compute. auto.
Qed.

(** A call that names all its arguments in an order that is not that of the
    inputs passes the argument of one input to another one. *)
Theorem C98_named_order_refuted : forall addr f c names,
  well_declared f -> legal_call f c -> c_names c = Some names ->
  length (c_args c) = length (inputs f) -> names <> inputs f ->
  exists args x y e, call_args addr f c = Ok args /\ x <> y /\ In x (inputs f) /\ In y (inputs f) /\
    passed f args x = Some e /\ given f c y e.
Proof. exact named_swapped. Qed.
Print Assumptions C98_named_order_refuted.
(** f(x1 = 2, x0 = 1, x2 = 3) passes 2 for x0. *)
Example C98_named_order_example :
  let c := {| c_args := [CNum 2; CNum 1; CNum 3]; c_names := Some [1; 0; 2] |} in
  legal_call ex_fun c /\ call_args (fun x => x) ex_fun c = Ok [CNum 2; CNum 1; CNum 3] /\
  passed ex_fun [CNum 2; CNum 1; CNum 3] 0 = Some (CNum 2) /\
  input_value plus_only ex_fun c (fun _ => 0%Z) 0 1%Z.
Proof.
  cbn zeta. split; [|split; [|split]].
  - apply C98_check; [apply ex_fun_declared|]. vm_compute. auto.
  - reflexivity.
  - reflexivity.
  - apply (value_given plus_only ex_fun _ (fun _ => 0%Z) 0 (CNum 1)). exists 1. split; reflexivity.
Qed.

(** The lowering of the arguments gives each value the name written for it, or
    that of the input at its position. *)
Theorem C98_argument_names : forall f pos named args names, named <> [] ->
  lower_args f pos named = Ok (args, names) ->
  length names = length args /\ combine names args = combine (inputs f) pos ++ named.
Proof.
  intros f pos named args names N K. unfold lower_args in K. destruct named as [|n named]; [congruence|].
  apply bind_ok in K as (l & Kl & K). injection K as <- <-.
  assert (X : length l = length pos /\ combine l pos = combine (inputs f) pos).
  { clear N. revert l Kl. generalize (inputs f) as ins. induction pos as [|p pos IH]; intros ins l K; cbn in K.
    - destruct ins; injection K as <-; auto.
    - destruct ins as [|x ins]; [discriminate|]. apply bind_ok in K as (m & Km & K). injection K as <-.
      destruct (IH ins m Km) as [L C]. cbn. rewrite C. auto. }
  destruct X as [L C]. split; [cbn; rewrite !app_length; cbn; rewrite !map_length; lia|].
  assert (Y : forall (a : list nat) (b : list cexp) c d, length a = length b -> combine (a ++ c) (b ++ d) = combine a b ++ combine c d).
  { induction a as [|x a IH]; intros [|y b] c d H; cbn in H; try discriminate; cbn; [reflexivity|]. f_equal. apply IH. lia. }
  change (combine (l ++ map fst (n :: named)) (pos ++ map snd (n :: named)) = combine (inputs f) pos ++ n :: named).
  rewrite Y by exact L. rewrite C. f_equal.
  generalize (n :: named) as q. intros q. induction q as [|[x e] q IH]; cbn; [reflexivity|]. f_equal. exact IH.
Qed.
Print Assumptions C98_argument_names.
Example C98_argument_names_example :
  lower_args {| f_vars := [(5, IOInput); (6, IOOutput); (7, IOInput)]; f_defaults := []; f_algs := [] |} [CNum 1] [(7, CNum 2)]
  = Ok ([CNum 1; CNum 2], [5; 7]).
Proof. reflexivity. Qed.

(** A call written in Modelica with all its arguments by position is accepted
    and each input has the value of its argument. *)
Theorem C98_written_positional : forall I addr f pos env,
  well_declared f -> length pos = length (inputs f) ->
  exists c args, lower_call f pos [] = Ok (Some c) /\ verify_call f c = true /\ call_args addr f c = Ok args /\
    forall i x e, nth_error (inputs f) i = Some x -> nth_error pos i = Some e ->
      exists a, passed f args x = Some a /\ ceval I env a = ceval I env e.
Proof.
  intros I addr f pos env W L. exists {| c_args := pos; c_names := None |}, pos.
  split; [|split; [|split]].
  - unfold lower_call. cbn. rewrite L, Nat.eqb_refl. reflexivity.
  - unfold verify_call. cbn. rewrite L, Nat.leb_refl, skipn_all2; auto.
  - unfold call_args, has_missing_args. cbn. rewrite L, Nat.eqb_refl. reflexivity.
  - intros i x e H1 H2. exists e. split; auto. apply passed_nth; [apply W|]. exists i. auto.
Qed.
Print Assumptions C98_written_positional.
Example C98_written_positional_example :
  lower_call ex_fun [CNum 4; CGet 7; CNum 6] [] = Ok (Some {| c_args := [CNum 4; CGet 7; CNum 6]; c_names := None |}).
Proof. reflexivity. Qed.

(** No other call written in Modelica is: one with a named argument violates an
    assertion, and one that leaves out an input is refused, although the
    language allows both. *)
Theorem C98_written_refuted : forall f pos named,
  legal_written f pos named ->
  (named <> [] -> lower_call f pos named = Bad) /\
  (named = [] -> length pos <> length (inputs f) -> lower_call f pos named = Ok None).
Proof.
  intros f pos named _. split.
  - apply lower_named_bad.
  - intros -> L. unfold lower_call. cbn. apply Nat.eqb_neq in L. rewrite L. reflexivity.
Qed.
Print Assumptions C98_written_refuted.
(** f(1) and f(1, x2 = 3). *)
Example C98_written_refuted_example :
  legal_written ex_fun [CNum 1] [] /\ lower_call ex_fun [CNum 1] [] = Ok None /\
  legal_written ex_fun [CNum 1] [(2, CNum 3)] /\ lower_call ex_fun [CNum 1] [(2, CNum 3)] = Bad.
Proof.
  split; [|split; [reflexivity|split; [|reflexivity]]].
  - split; [cbn; lia|]. split; [constructor|]. split; [intros x []|].
    cbn. intros x [<-|[<-|[]]]; right; eauto 8.
  - split; [cbn; lia|]. split; [repeat constructor; cbn; lia|]. split; [intros x [<-|[]]; cbn; auto|].
    cbn. intros x [<-|[<-|[]]]; eauto 8.
Qed.

(** ** C99: defaults of outputs and protected variables *)

(** The assignments inserted in front of the body give every output and
    protected variable with a default its value, and the body runs from there.
    Missing: defaults that read an input or a variable without a default, see
    [C99_reads_input_refuted]. *)
Theorem C99_defaults_partial : forall addr f,
  NoDup (map fst (f_defaults f)) -> acyclic (f_defaults f) ->
  (forall x d y, In (x, d) (f_defaults f) -> ~ In x (inputs f) -> In y (gets d) ->
     ~ In y (inputs f) /\ exists d', In (y, d') (f_defaults f)) ->
  exists algs, insert_defaults addr f = Ok algs /\
    forall I s, exists s', defaults_hold I f s s' /\ run_algorithms I algs s = run_algorithms I (f_algs f) s'.
Proof. exact insert_defaults_ok. Qed.
Print Assumptions C99_defaults_partial.
Example C99_defaults_example :
  (forall x d y, In (x, d) (f_defaults ex_fun) -> ~ In x (inputs ex_fun) -> In y (gets d) ->
     ~ In y (inputs ex_fun) /\ exists d', In (y, d') (f_defaults ex_fun)) /\
  match insert_defaults (fun x => x) ex_fun with
  | Ok algs => run_algorithms plus_only algs (fun _ => 1%Z) 3
  | _ => 0%Z
  end = 30%Z.
Proof.
  split.
  - cbn. intros x d y [E|[E|[E|[E|[E|[]]]]]]; injection E as <- <-; cbn; intros N H.
    + exfalso. apply N. auto.
    + exfalso. apply N. auto.
    + destruct H as [<-|[<-|[]]]; (split; [lia|eauto 8]).
    + destruct H.
    + destruct H as [<-|[]]; (split; [lia|eauto 8]).
  - vm_compute. reflexivity.
Qed.

(** A default that reads an input, as in "output Real y = x + 1", or a variable
    without a default: the compiler follows a null pointer. *)
Theorem C99_reads_input_refuted : forall addr f x d y,
  NoDup (map fst (f_defaults f)) -> In (x, d) (f_defaults f) -> ~ In x (inputs f) -> In y (gets d) ->
  In y (inputs f) \/ (forall d', ~ In (y, d') (f_defaults f)) ->
  insert_defaults addr f = Bad.
Proof. exact insert_defaults_bad. Qed.
Print Assumptions C99_reads_input_refuted.
Example C99_reads_input_example :
  insert_defaults (fun x => x)
    {| f_vars := [(0, IOInput); (1, IOOutput)]; f_defaults := [(1, CBin 0 (CGet 0) (CNum 1))]; f_algs := [[]] |} = Bad.
Proof. reflexivity. Qed.
