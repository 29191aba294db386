(** Outcomes of the modelled operations.
    [Bad] stands for everything the C++ code does not define: a violated
    assertion, reading an empty array, or using a pointer to a freed node.
    [NoFuel] is the outcome of a loop that has not ended within the fuel given
    to it; it is neither a value nor an undefined behaviour. *)
From Coq Require Import List.
Import ListNotations.

Inductive res (A : Type) : Type :=
| Ok (a : A)
| Bad
| NoFuel.
Arguments Ok {A} a.
Arguments Bad {A}.
Arguments NoFuel {A}.

Definition bind {A B} (m : res A) (f : A -> res B) : res B :=
  match m with
  | Ok a => f a
  | Bad => Bad
  | NoFuel => NoFuel
  end.

Notation "x <- m ;; f" := (bind m (fun x => f))
  (at level 61, m at next level, right associativity).
Notation "' p <- m ;; f" := (bind m (fun p => f))
  (at level 61, p pattern, m at next level, right associativity).

(** A C++ [assert]. *)
Definition assert_ok (b : bool) : res unit := if b then Ok tt else Bad.

Definition of_option {A} (o : option A) : res A :=
  match o with Some a => Ok a | None => Bad end.

(** Left fold with early failure (a for loop whose body may fail). *)
Fixpoint fold_res {A B} (f : B -> A -> res B) (l : list A) (b : B) : res B :=
  match l with
  | [] => Ok b
  | x :: l' => b' <- f b x ;; fold_res f l' b'
  end.

Lemma bind_ok : forall A B (m : res A) (f : A -> res B) b,
  bind m f = Ok b -> exists a, m = Ok a /\ f a = Ok b.
Proof. intros A B [a| |] f b H; cbn in H; try discriminate. eauto. Qed.

Lemma assert_ok_inv : forall b u, assert_ok b = Ok u -> b = true.
Proof. intros [|] u H; cbn in H; congruence. Qed.

Lemma of_option_inv : forall A (o : option A) a, of_option o = Ok a -> o = Some a.
Proof. intros A [x|] a H; cbn in H; congruence. Qed.
