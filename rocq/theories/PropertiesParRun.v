(** C114: running a parallel group with the runtime's scheduler gives the same values as
    running its blocks one after the other. *)
From Coq Require Import List Arith Bool ZArith Lia Permutation.
Import ListNotations.
From Verif Require Import ParRunModel ParRunSpec ParRunProofs.

(** Every scalar equation of the group is run exactly once, whatever the scheduler does. *)
Theorem C114_once : forall bs rem es ss,
  instantiate bs = (rem, es) -> scheduled es ss -> Permutation (serial rem ++ ss) (serial bs).
Proof. exact group_once. Qed.
Print Assumptions C114_once.

(** Every order in which the scheduler may run the steps gives every cell the value that
    it has when the blocks run one after the other.
    Missing: calls with dependent indices and several boxes, below. *)
Theorem C114_values_partial : forall bs rem es ss st c,
  instantiate bs = (rem, es) -> scheduled es ss ->
  written_once bs -> blocks_apart bs -> flags_right bs -> one_box bs ->
  run st (serial rem ++ ss) c = run st (serial bs) c.
Proof. intros; eapply group_values; eauto. Qed.
Print Assumptions C114_values_partial.

(** A group with a call of two boxes whose indices are independent, a call with dependent
    indices, a block with two operations, and one of the orders in which they can run. *)
Definition sum (l : list Z) : Z := fold_right Z.add 1%Z l.
Definition st (w : nat) (rs : list nat) : step := mkStep w rs sum.
Definition group1 : list block :=
  [[BCall (CBoxes [[st 1 [9]; st 2 [9]]; [st 4 [8]]] true)];
   [BOther [st 5 []]; BCall (CScalar (st 6 [5]) false)];
   [BCall (CBoxes [[st 10 [9]; st 11 [10]; st 12 [11]]] false)]].
Definition order1 : list step := [st 10 [9]; st 4 [8]; st 11 [10]; st 2 [9]; st 12 [11]; st 1 [9]].
Example C114_values_case :
  fst (instantiate group1) = [[BOther [st 5 []]; BCall (CScalar (st 6 [5]) false)]] /\
  scheduled (snd (instantiate group1)) order1 /\
  written_once group1 /\ blocks_apart group1 /\ flags_right group1 /\ one_box group1.
Proof.
  assert (AP : forall x y, existsb (Nat.eqb (s_write x)) (s_reads y) = false ->
    existsb (Nat.eqb (s_write y)) (s_reads x) = false -> apart x y).
  { intros x y E1 E2. split; intros H.
    - assert (T : existsb (Nat.eqb (s_write x)) (s_reads y) = true)
        by (apply existsb_exists; eexists; split; [exact H | apply Nat.eqb_refl]). congruence.
    - assert (T : existsb (Nat.eqb (s_write y)) (s_reads x) = true)
        by (apply existsb_exists; eexists; split; [exact H | apply Nat.eqb_refl]). congruence. }
  split; [reflexivity|]. split; [split|split; [|split; [|split]]].
  - cbn. unfold order1.
    apply Permutation_trans with ([st 1 [9]; st 2 [9]; st 4 [8]; st 10 [9]; st 11 [10]; st 12 [11]]); [|reflexivity].
    apply NoDup_Permutation_bis.
    + apply NoDup_map_inv with (f := s_write). cbn.
      repeat (constructor; [cbn; intuition discriminate|]). constructor.
    + cbn; lia.
    + intros x H. cbn in H |- *. tauto.
  - intros pts Hin x y B. cbn in Hin.
    destruct Hin as [E|[E|[E|[]]]]; try discriminate. injection E as <-.
    unfold order1. rewrite !before_cons in *. cbn [In] in *. intuition (subst; auto).
  - unfold written_once. cbn. repeat (constructor; [cbn; intuition discriminate|]). constructor.
  - intros b b' l1 l2 l3 E x y Hx Hy.
    unfold group1 in E.
    destruct l1 as [|? [|? l1]]; cbn [app] in E.
    + injection E as <- E. destruct l2 as [|? [|? l2]]; cbn [app] in E.
      * injection E as <- _. cbn in Hx, Hy.
        repeat (destruct Hx as [<-|Hx]; [repeat (destruct Hy as [<-|Hy]; [apply AP; reflexivity|]); destruct Hy|]). destruct Hx.
      * injection E as <- <- _. cbn in Hx, Hy.
        repeat (destruct Hx as [<-|Hx]; [repeat (destruct Hy as [<-|Hy]; [apply AP; reflexivity|]); destruct Hy|]). destruct Hx.
      * injection E as _ _ E. destruct l2; discriminate.
    + injection E as _ <- E. destruct l2 as [|? l2]; cbn [app] in E.
      * injection E as <- _. cbn in Hx, Hy.
        repeat (destruct Hx as [<-|Hx]; [repeat (destruct Hy as [<-|Hy]; [apply AP; reflexivity|]); destruct Hy|]). destruct Hx.
      * injection E as _ E. destruct l2; discriminate.
    + injection E as _ _ E. destruct l1 as [|? l1]; cbn [app] in E.
      * injection E as _ E. destruct l2; discriminate.
      * injection E as _ E. destruct l1; discriminate.
  - intros b c Hb Hc Fl x y B. cbn in Hb.
    destruct Hb as [<-|[<-|[<-|[]]]]; cbn in Hc.
    + destruct Hc as [Hc|[]]. injection Hc as <-. cbn [call_steps concat app] in B.
      rewrite !before_cons in B. cbn [In] in B.
      repeat match goal with
        | H : _ \/ _ |- _ => destruct H
        | H : _ /\ _ |- _ => destruct H
        | H : False |- _ => destruct H
        | H : before _ _ [] |- _ => now apply before_nil in H
        end; subst; apply AP; reflexivity.
    + destruct Hc as [Hc|[Hc|[]]]; [discriminate|]. injection Hc as <-. discriminate.
    + destruct Hc as [Hc|[]]. injection Hc as <-. discriminate.
  - intros b boxes Hb Hc. cbn in Hb.
    destruct Hb as [<-|[<-|[<-|[]]]]; cbn in Hc.
    + destruct Hc as [Hc|[]]. discriminate.
    + destruct Hc as [Hc|[Hc|[]]]; discriminate.
    + destruct Hc as [Hc|[]]. injection Hc as <-. cbn; lia.
Qed.

(** Each box of an equation becomes an entry of its own, also if the indices depend on
    each other: with two boxes the scheduler may run the second one first, and read the
    old value of a cell of the first one. *)
Theorem C114_boxes_refuted : exists bs rem es ss,
  instantiate bs = (rem, es) /\ scheduled es ss /\ written_once bs /\ blocks_apart bs /\ flags_right bs /\
  run (fun _ => 0%Z) (serial rem ++ ss) 2 <> run (fun _ => 0%Z) (serial bs) 2.
Proof.
  exists [[BCall (CBoxes [[st 1 []]; [st 2 [1]]] false)]], [], [([st 1 []], false); ([st 2 [1]], false)], [st 2 [1]; st 1 []].
  split; [reflexivity|]. split; [split|split; [|split; [|split]]].
  - cbn. constructor.
  - intros pts [E|[E|[]]] x y B; injection E as <-; apply before_cons in B;
      (destruct B as [[_ []]|B]; now apply before_nil in B).
  - cbn. repeat (constructor; [cbn; intuition discriminate|]). constructor.
  - intros b b' l1 l2 l3 E. destruct l1 as [|? l1]; [destruct l2; discriminate | destruct l1; discriminate].
  - intros b c [<-|[]] [Hc|[]] Fl. injection Hc as <-. discriminate.
  - vm_compute. discriminate.
Qed.
Print Assumptions C114_boxes_refuted.
