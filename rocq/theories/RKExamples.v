(** Small models the properties of the integrators are tried on. *)
From Coq Require Import String Bool ZArith QArith Qreals Reals List.
From Verif Require Import Result RKModel RKSpec RKStatements.
Import ListNotations.
Local Open Scope nat_scope.
Local Open Scope list_scope.

(** The scalar equation of the variable [d]. *)
Definition scalar_equation (d : nat) (rhs : R -> values -> R) (rd : list nat) (time : bool) :=
  mk_equation d [[]] (fun p => p) (fun t vals _ => rhs t vals)
    (fun _ => map (fun v => (v, [])) rd) time.
Definition alone (e : equation) : scc := mk_scc false [e].

(** x' = g time x: x is the variable 0, its derivative the variable 1. *)
Definition one_state : model := mk_model [(0, [[]]); (1, [[]])] [(0, 1)].
Definition one_state_sccs (g : R -> R -> R) : list scc :=
  [alone (scalar_equation 1 (fun t vals => g t (vals 0 [])) [0] true)].

(** x' = y, y' = 1: the variables 0 and 1, their derivatives 2 and 3. *)
Definition two_states : model :=
  mk_model [(0, [[]]); (1, [[]]); (2, [[]]); (3, [[]])] [(0, 2); (1, 3)].
Definition two_states_sccs : list scc :=
  [alone (scalar_equation 2 (fun _ vals => vals 1 []) [1] false);
   alone (scalar_equation 3 (fun _ _ => 1%R) [] false)].

(** Real x[2]; der(x[1]) = x[2], der(x[2]) = 1. *)
Definition array_state : model :=
  mk_model [(0, [[0%Z]; [1%Z]]); (1, [[0%Z]; [1%Z]])] [(0, 1)].
Definition array_state_sccs : list scc :=
  [alone (mk_equation 1 [[0%Z]] (fun p => p) (fun _ vals _ => vals 0 [1%Z])
            (fun _ => [(0, [1%Z])]) false);
   alone (mk_equation 1 [[1%Z]] (fun p => p) (fun _ _ _ => 1%R) (fun _ => []) false)].

(** x' = z, z = x: x is the variable 0, its derivative 1, z the variable 2. *)
Definition with_algebraic : model :=
  mk_model [(0, [[]]); (1, [[]]); (2, [[]])] [(0, 1)].
Definition with_algebraic_sccs : list scc :=
  [alone (scalar_equation 2 (fun _ vals => vals 0 []) [0] false);
   alone (scalar_equation 1 (fun _ vals => vals 2 []) [2] false)].

(** The equations of a step, when the pass succeeds. *)
Definition step_of (m : model) (tb : res tableau) (sccs : list scc) : list requation :=
  match tb with
  | Ok tb => match try_step m tb sccs with Ok (Some eqs) => eqs | _ => [] end
  | _ => []
  end.
