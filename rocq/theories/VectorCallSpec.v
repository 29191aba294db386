(** What calling a function with arrays means, after section 12.4.6 of the
    Modelica specification, without the compiler. *)

From Coq Require Import List Arith Bool Lia.
Import ListNotations.
From Verif Require Import VectorCallModel.

(** [i] is an index of an array with the sizes [d]. *)
Definition index_of (i d : list nat) : Prop := Forall2 lt i d.

(** The part of [t] at [i]. *)
Definition part {V} (i : list nat) (t : tensor V) : tensor V :=
  mkT (skipn (length i) (t_dims t)) (fun j => t_at t (i ++ j)).

(** Calling [f] for each element: the sizes of the result are [outer] and then
    those of the results of [f], and its part at [i] is what [f] returns for
    the parts of the arguments at [i]. *)
Definition for_each {V} (f : callee V) (outer inner : list nat)
  (args : list (tensor V)) (r : tensor (option V)) : Prop :=
  t_dims r = outer ++ inner /\
  forall i j, index_of i outer -> length j = length inner ->
    t_at r (i ++ j) = Some (t_at (f_body f (map (part i) args)) j).

(** The static type [s] is right about sizes [d]. *)
Definition typed (s : sshape) (d : list nat) : Prop :=
  Forall2 (fun o n => o = None \/ o = Some n) s d.

(** The arguments of a call for each of [outer]: each has the sizes [outer]
    and then as many as the function declares. *)
Definition vector_args {V} (f : callee V) (outer : list nat)
  (args : list (tensor V)) : Prop :=
  Forall2 (fun t rank => exists d, length d = rank /\ t_dims t = outer ++ d)
          args (f_ranks f).

(** A function whose result has the sizes [inner] for every argument taken
    from an array. *)
Definition returns {V} (f : callee V) (inner : list nat) : Prop :=
  f_shape f = map Some inner /\ forall ts, t_dims (f_body f ts) = inner.
