(** What the propagation of read-only variables has to keep. *)
From Coq Require Import List.
From Verif Require Import PropagateModel.
Import ListNotations.

(** In each region results are unique and operands come before their uses; a
    binding equation that replaces reads is there and yields one value. *)
Fixpoint ordered (known : list nat) (ops : list (nat * instr)) : Prop :=
  match ops with
  | [] => True
  | (n, i) :: ops' => match i with IGet _ => True | IOp _ args => incl args known end /\ ordered (n :: known) ops'
  end.
(** Variable [v] is read-only, the user did not ask to ignore it, and region [b] is
    its binding equation. A variable has at most one. *)
Definition bound (m : rmodel) (v b : nat) : Prop := In v (rm_readonly m) /\ ~ In v (rm_ignored m) /\ In (v, b) (rm_bindings m).
Record well_formed (m : rmodel) : Prop := {
  wf_once : NoDup (map fst (rm_bindings m));
  wf_unique : forall r, In r (rm_regions m) -> NoDup (map fst (r_ops r));
  wf_ordered : forall r, In r (rm_regions m) -> ordered [] (r_ops r);
  wf_yields : forall r, In r (rm_regions m) -> incl (r_yields r) (map fst (r_ops r));
  wf_binding : forall v b, bound m v b -> exists r y, nth_error (rm_regions m) b = Some r /\ r_yields r = [y] }.

Section Spec.
Variables (V : Type) (op : nat -> list V -> V).

(** The values of the results of the operations, one after the other, with the
    values [x] of the variables; none if an operand has no value in the region. *)
Fixpoint all_of {A B} (f : A -> option B) (l : list A) : option (list B) :=
  match l with
  | [] => Some []
  | a :: l' => match f a, all_of f l' with Some b, Some bs => Some (b :: bs) | _, _ => None end
  end.
Fixpoint results (x : nat -> V) (ops : list (nat * instr)) (env : list (nat * V)) : option (list (nat * V)) :=
  match ops with
  | [] => Some env
  | (n, IGet v) :: ops' => results x ops' ((n, x v) :: env)
  | (n, IOp o args) :: ops' =>
      match all_of (lookup env) args with
      | Some vs => results x ops' ((n, op o vs) :: env)
      | None => None
      end
  end.
(** The values a region yields. *)
Definition value (x : nat -> V) (r : region) : option (list V) :=
  match results x (r_ops r) [] with
  | Some env => all_of (lookup env) (r_yields r)
  | None => None
  end.
(** The values of the variables are the ones the binding equations give. *)
Definition satisfies (m : rmodel) (at_ : nat -> region) (x : nat -> V) : Prop :=
  forall v b, bound m v b -> value x (at_ b) = Some [x v].
End Spec.

(** No step of the schedule changes a region while a task clones operations from
    it. *)
Definition clones_from (st : rstate) (t b : nat) : Prop := exists g cur mp pending, s_task st t = TClone g b cur mp pending.
Fixpoint undisturbed (m : rmodel) (schedule : list nat) (st : rstate) : Prop :=
  match schedule with
  | [] => True
  | r :: s =>
      match step m r st with
      | Some st' => (s_region st' r = s_region st r \/ forall t, ~ clones_from st t r) /\ undisturbed m s st'
      | None => True
      end
  end.
(** At each step all the other tasks are between two reads. *)
Fixpoint alone (m : rmodel) (schedule : list nat) (st : rstate) : Prop :=
  match schedule with
  | [] => True
  | r :: s =>
      (forall t, t <> r -> exists pending, s_task st t = TIdle pending) /\
      match step m r st with Some st' => alone m s st' | None => True end
  end.
(** No binding equation that replaces reads has reads that are replaced; or, less
    than that, reads the variable it is for. *)
Definition replaced_in (m : rmodel) (b v : nat) : Prop := exists n, In (n, IGet v) (r_ops (s_region (start m) b)) /\ exists c, bound m v c.
Definition independent (m : rmodel) : Prop := forall v b, bound m v b -> forall w, ~ replaced_in m b w.
Definition not_of_itself (m : rmodel) : Prop := forall v b, bound m v b -> ~ replaced_in m b v.
Definition finished (st : rstate) : Prop := forall t, s_task st t = TIdle [].
