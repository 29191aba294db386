(** C108: a function called with arrays where it declares scalars is called
    for each element. *)

From Coq Require Import List Arith Bool Lia.
Import ListNotations.
From Verif Require Import VectorCallModel VectorCallSpec VectorCallProofs.

(** One argument: for every function, every array and every number of extra
    dimensions, with static or dynamic sizes. *)
Theorem C108_one_argument :
  forall V (f : callee V) (s : sshape) (t : tensor V) outer own inner,
    f_ranks f = [length own] -> t_dims t = outer ++ own -> typed s (t_dims t) ->
    returns f inner -> outer <> [] ->
    exists r, call f [s] [t] = Done r /\ for_each f outer inner [t] r.
Proof.
  intros V f s t outer own inner Hr Ht Hs Hf Ho.
  apply call_ok; try assumption; try discriminate.
  - unfold vector_args. rewrite Hr. constructor; [| constructor]. exists own. auto.
  - constructor; [exact Hs | constructor].
  - rewrite Hr, vec_rank_one, (typed_length _ _ Hs), Ht, app_length. lia.
Qed.
Print Assumptions C108_one_argument.

(** Several arguments whose extra dimensions all have one size [c]: vectors,
    square matrices and so on.  Missing: extra dimensions of different sizes,
    see [C108_matrices_refuted]. *)
Theorem C108_equal_sizes_partial :
  forall V (f : callee V) types (args : list (tensor V)) c n inner,
    vector_args f (repeat c (S n)) args ->
    Forall2 (fun s t => typed s (t_dims t)) types args ->
    returns f inner -> args <> [] ->
    exists r, call f types args = Done r /\ for_each f (repeat c (S n)) inner args r.
Proof.
  intros V f types args c n inner Hv Ht Hf Hne.
  apply call_ok; try assumption; try discriminate.
  apply (vec_rank_same _ _ _ c).
  - intros ->. inversion Ht; subst. congruence.
  - discriminate.
  - rewrite repeat_length. reflexivity.
  - apply (arg_types_of f (repeat c (S n)) types args Hv Ht).
Qed.
Print Assumptions C108_equal_sizes_partial.

(** Arguments of the declared ranks: one call, no elements. *)
Theorem C108_declared_ranks :
  forall V (f : callee V) (types : list sshape) (args : list (tensor V)),
    map (@length (option nat)) types = f_ranks f ->
    exists r, call f types args = Done r /\
      t_dims r = t_dims (f_body f args) /\
      forall j, t_at r j = Some (t_at (f_body f args) j).
Proof.
  intros V f types args E. rewrite (call_plain f types args E).
  eexists. split; [reflexivity |]. split; reflexivity.
Qed.
Print Assumptions C108_declared_ranks.

(** Two arguments whose types show different sizes: refused. *)
Theorem C108_different_sizes_refused :
  forall V (f : callee V) (s s' : sshape) types args k n m,
    k < length s - hd 0 (f_ranks f) ->
    nth_error s k = Some (Some n) -> In s' types -> nth_error s' k = Some (Some m) ->
    n <> m -> call f (s :: types) args = Refused.
Proof. intros. eapply mismatch_refused; eassumption. Qed.
Print Assumptions C108_different_sizes_refused.

(** Finding: two or more arrays of the same known sizes are refused when two
    of the extra dimensions differ in size: no function of two scalars can be
    called with two matrices, unless they are square. *)
Theorem C108_matrices_refuted :
  forall V (f : callee V) outer (t u : tensor V) args k n c,
    vector_args f outer (t :: u :: args) ->
    nth_error outer 0 = Some c -> nth_error outer k = Some n -> n <> c ->
    call f (map (fun t => map Some (t_dims t)) (t :: u :: args)) (t :: u :: args) = Refused.
Proof. intros. eapply call_uneven; eauto. Qed.
Print Assumptions C108_matrices_refuted.

(** Finding: sizes not known to the types are not compared at run time. A
    second vector that is too short is read out of bounds, one that is too
    long is cut. *)
Theorem C108_runtime_sizes_refuted :
  forall V (f : callee V) t u n m,
    f_ranks f = [0; 0] -> returns f [] -> t_dims t = [n] -> t_dims u = [m] -> n <> m ->
    (m < n -> call f [[None]; [None]] [t; u] = Undefined) /\
    (n < m -> exists r, call f [[None]; [None]] [t; u] = Done r /\ t_dims r = [n]).
Proof.
  intros V f t u n m Hr Hf Ht Hu _. split; intros L.
  - eapply call_shorter; eassumption.
  - eapply call_longer; eassumption.
Qed.
Print Assumptions C108_runtime_sizes_refuted.

(** Finding: a function that returns a vector of a size its type does not tell
    gets room for its result after the sizes of the argument, which are not
    those of the result. *)
Theorem C108_dynamic_result_refuted :
  forall V (f : callee V),
    f_shape f = [None] ->
    (f_ranks f = [0] -> forall t n, t_dims t = [n] ->
       call f [[Some n]] [t] = Undefined) /\
    (f_ranks f = [1] -> forall t n m k, t_dims t = [n; m] -> 0 < n -> k <> m ->
       (forall ts, t_dims (f_body f ts) = [k]) ->
       call f [[Some n; Some m]] [t] = Undefined).
Proof.
  intros V f Hs. split; intros Hr t n.
  - intros Ht. apply call_dynamic_scalar; assumption.
  - intros m k Ht L D Hf. eapply call_dynamic_vector; eassumption.
Qed.
Print Assumptions C108_dynamic_result_refuted.

(** ** The hypotheses are met *)

Definition double : callee nat :=
  mkF [0] [] (fun ts => match ts with [t] => mkT [] (fun _ => 2 * t_at t []) | _ => mkT [] (fun _ => 0) end).
Definition plus2 : callee nat :=
  mkF [0; 0] [] (fun ts => match ts with
                           | [t; u] => mkT [] (fun _ => t_at t [] + 10 * t_at u [])
                           | _ => mkT [] (fun _ => 0) end).
Definition m23 : tensor nat :=
  mkT [2; 3] (fun i => match i with [a; b] => 3 * a + b | _ => 99 end).
Definition v2 : tensor nat := mkT [2] (fun i => match i with [a] => 5 + a | _ => 99 end).
Definition w2 : tensor nat := mkT [2] (fun i => match i with [a] => 1 + a | _ => 99 end).

Lemma double_returns : returns double [].
Proof. split; [reflexivity |]. intros [| t [| u ts]]; reflexivity. Qed.
Lemma plus2_returns : returns plus2 [].
Proof. split; [reflexivity |]. intros [| t [| u [| w ts]]]; reflexivity. Qed.

Example one_argument_case :
  exists r, call double [[Some 2; None]] [m23] = Done r /\ for_each double [2; 3] [] [m23] r.
Proof.
  apply (C108_one_argument nat double [Some 2; None] m23 [2; 3] [] []);
    try reflexivity; try discriminate.
  - constructor; [right; reflexivity | constructor; [left; reflexivity | constructor]].
  - exact double_returns.
Qed.

Example one_argument_value :
  match call double [[Some 2; None]] [m23] with
  | Done r => (t_dims r, t_at r [1; 2], t_at r [0; 1])
  | _ => ([], None, None)
  end = ([2; 3], Some 10, Some 2).
Proof. vm_compute. reflexivity. Qed.

Example equal_sizes_case :
  exists r, call plus2 [[Some 2]; [None]] [v2; w2] = Done r /\
            for_each plus2 [2] [] [v2; w2] r.
Proof.
  apply (C108_equal_sizes_partial nat plus2 [[Some 2]; [None]] [v2; w2] 2 0 []);
    [| | exact plus2_returns | discriminate].
  - constructor; [exists []; auto |]. constructor; [exists []; auto | constructor].
  - constructor; [| constructor; [| constructor]]; (constructor; [| constructor]).
    + right; reflexivity.
    + left; reflexivity.
Qed.

Example equal_sizes_value :
  match call plus2 [[Some 2]; [None]] [v2; w2] with
  | Done r => (t_dims r, t_at r [0], t_at r [1])
  | _ => ([], None, None)
  end = ([2], Some 15, Some 26).
Proof. vm_compute. reflexivity. Qed.

Example declared_ranks_case : map (@length (option nat)) [[]; []] = f_ranks plus2.
Proof. reflexivity. Qed.

Example different_sizes_case : call plus2 [[Some 2]; [Some 3]] [v2; w2] = Refused.
Proof.
  apply (C108_different_sizes_refused nat plus2 [Some 2] [Some 3] [[Some 3]] _ 0 2 3);
    cbn; auto; discriminate.
Qed.

Example matrices_case :
  call plus2 [[Some 2; Some 3]; [Some 2; Some 3]] [m23; m23] = Refused.
Proof.
  apply (C108_matrices_refuted nat plus2 [2; 3] m23 m23 [] 1 3 2);
    try reflexivity; [| discriminate].
  constructor; [exists []; auto |]. constructor; [exists []; auto | constructor].
Qed.

(** The call the refusal forbids: for each element. *)
Example matrices_meant :
  exists r, for_each plus2 [2; 3] [] [m23; m23] r.
Proof.
  exists (mkT [2; 3] (fun p => Some (t_at (f_body plus2 (map (part p) [m23; m23])) []))).
  split; [reflexivity |]. intros i j Hi Lj. destruct j; [| discriminate].
  rewrite app_nil_r. reflexivity.
Qed.

Example runtime_sizes_case : returns plus2 [] /\ f_ranks plus2 = [0; 0].
Proof. split; [exact plus2_returns | reflexivity]. Qed.

(** function f(Real[:] x) → Real[:] y of two elements. *)
Definition ends : callee nat :=
  mkF [1] [None] (fun ts => mkT [2] (fun j => match ts, j with
                                              | [t], [0] => t_at t [0]
                                              | [t], _ => t_at t [hd 0 (t_dims t) - 1]
                                              | _, _ => 0 end)).
Example dynamic_result_case : call ends [[Some 2; Some 3]] [m23] = Undefined.
Proof.
  apply (proj2 (C108_dynamic_result_refuted nat ends eq_refl) eq_refl m23 2 3 2);
    try reflexivity; try lia; discriminate.
Qed.
