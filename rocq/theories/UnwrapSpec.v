(** Which function a call runs. *)

From Coq Require Import List Arith String.
From Verif Require Import UnwrapModel.
Import ListNotations.

(** The call runs the function number [k] of the program, and no other. *)
Definition runs (p : program) (c : call) (k : nat) : Prop :=
  (exists f, nth_error (p_funcs p) k = Some f /\ f_path f = c_callee c) /\
  forall j f, nth_error (p_funcs p) j = Some f -> f_path f = c_callee c -> j = k.

(** A program as the checks of symbols accept it: every function has a name, no
    two symbols of a scope have the same. *)
Definition well_named (p : program) : Prop :=
  Forall (fun f => f_path f <> []) (p_funcs p) /\
  NoDup (map f_path (p_funcs p)) /\
  NoDup (p_others p) /\
  forall f n, In f (p_funcs p) -> f_path f = [n] -> ~ In n (p_others p).

(** The call [c'] of the program [q] runs what the call [c] of [p] ran. *)
Definition same_target (p q : program) (c c' : call) : Prop :=
  forall k, runs p c k -> runs q c' k.
