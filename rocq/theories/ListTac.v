(** A tactic for permutations of concatenations. *)
From Coq Require Import List Permutation.
Import ListNotations.

Lemma perm_rot : forall A (l a b : list A),
  Permutation l (b ++ a) -> Permutation l (a ++ b).
Proof. intros. rewrite H. apply Permutation_app_comm. Qed.

Ltac perm_norm :=
  repeat match goal with
  | |- context [?x :: ?l] =>
      lazymatch l with [] => fail | _ => change (x :: l) with ([x] ++ l) end
  end;
  rewrite <- ?app_assoc, ?app_nil_r; rewrite ?app_nil_l.

Ltac perm_find x n :=
  lazymatch n with
  | O => fail
  | S ?m =>
      lazymatch goal with
      | |- Permutation (x ++ _) (x ++ _) => idtac
      | |- Permutation x x => idtac
      | |- _ => apply perm_rot; rewrite <- ?app_assoc; perm_find x m
      end
  end.

Ltac perm_step :=
  match goal with
  | |- Permutation ?x ?x => apply Permutation_refl
  | |- Permutation (?x ++ _) (_ ++ _) => perm_find x 12; apply Permutation_app_head
  end.

Ltac perm_app := perm_norm; repeat perm_step.

Lemma NoDup_app_l : forall A (l l' : list A), NoDup (l ++ l') -> NoDup l.
Proof.
  induction l as [|x l IH]; intros l' H; cbn in *; constructor; inversion H; subst.
  - intros Hx. apply H2. apply in_or_app; auto.
  - eapply IH; eauto.
Qed.

Lemma NoDup_app_r : forall A (l l' : list A), NoDup (l ++ l') -> NoDup l'.
Proof. induction l as [|x l IH]; intros l' H; cbn in *; auto. inversion H; auto. Qed.

Lemma NoDup_app_disj : forall A (l l' : list A) x, NoDup (l ++ l') -> In x l -> In x l' -> False.
Proof.
  induction l as [|y l IH]; intros l' x H Hx Hx'; cbn in *; auto.
  inversion H; subst. destruct Hx as [->|Hx]; eauto.
  apply H2. apply in_or_app; auto.
Qed.

Lemma NoDup_app_intro : forall A (l l' : list A), NoDup l -> NoDup l' ->
  (forall x, In x l -> In x l' -> False) -> NoDup (l ++ l').
Proof.
  induction l as [|y l IH]; intros l' H H' Hd; cbn in *; auto.
  inversion H; subst. constructor.
  - rewrite in_app_iff. intros [|]; eauto.
  - apply IH; eauto.
Qed.
