(** C107: propagating read-only variables.

    ReadOnlyVariablesPropagation replaces each read of a parameter or constant
    that has a binding equation with a copy of the operations of that equation. The
    regions of the model are handled in parallel, one task for each. A user relies
    on every equation keeping its meaning, whatever the order in which the tasks
    run. *)
From Coq Require Import List Bool Arith Lia ZArith.
From Verif Require Import PropagateModel PropagateSpec PropagateProofs.
Import ListNotations.
Local Open Scope nat_scope.

(** The full property is this, for every schedule. It is false, see
    [C107_race_refuted] and [C107_erased_refuted]. *)
Definition kept (m : rmodel) (schedule : list nat) : Prop :=
  exists st, run m schedule (start m) = Some st /\
  forall (V : Type) (op : nat -> list V -> V) x, satisfies V op m (s_region (start m)) x ->
    forall r, value V op x (s_region st r) = value V op x (s_region (start m) r).

(** If no step changes a binding equation while a task copies from it, every region
    keeps its value, for all values of the variables that are the ones the binding
    equations give, and no step fails; at every moment, not only at the end. *)
Theorem C107_undisturbed_partial : forall m schedule, well_formed m -> undisturbed m schedule (start m) -> kept m schedule.
Proof.
  intros m schedule W U. destruct (run_inv unit uop m ones W (unit_sat m W) schedule (start m) (start_inv unit uop m ones W) U) as (st & E & _).
  exists st. split; [exact E|]. intros V op x Sat r.
  destruct (run_inv V op m x W Sat schedule (start m) (start_inv V op m x W) U) as (st' & E' & I).
  assert (st' = st) as -> by congruence. apply I.
Qed.
Print Assumptions C107_undisturbed_partial.

(** That is so for every schedule if binding equations that are copied have no
    reads to replace. Then they do not change, and when all the tasks have finished
    no read is left to replace. *)
Theorem C107_independent_partial : forall m schedule, well_formed m -> independent m -> kept m schedule /\
  forall st, run m schedule (start m) = Some st ->
    (forall v b, bound m v b -> s_region st b = s_region (start m) b) /\
    (finished st -> forall r n v, In (n, IGet v) (r_ops (s_region st r)) -> forall b, ~ bound m v b).
Proof.
  intros m schedule W Ind.
  assert (U : undisturbed m schedule (start m)) by (apply independent_undisturbed; [exact W|exact Ind|apply start_inv, W|apply start_origin, W]).
  split; [exact (C107_undisturbed_partial m schedule W U)|]. intros st E.
  destruct (run_tidy m W Ind schedule (start m) st (start_inv unit uop m ones W) (start_origin m W) (start_tidy m) E) as [Tb Tl].
  split; [intros v b B; exact (Tb v b (bound_target m v b (wf_once m W) B))|]. intros F r n v Hn b B. pose proof (bound_target m v b (wf_once m W) B) as T.
  assert (H : In n (todo (s_task st r))) by (apply (Tl r n v Hn); congruence). rewrite (F r) in H. destruct H.
Qed.
Print Assumptions C107_independent_partial.

(** And it is so with one thread, whatever the order of the regions, if no binding
    equation reads the variable it is for. *)
Theorem C107_one_thread_partial : forall m schedule, well_formed m -> not_of_itself m -> alone m schedule (start m) -> kept m schedule.
Proof.
  intros m schedule W Self Al. apply C107_undisturbed_partial; [exact W|].
  apply alone_undisturbed; [exact W|exact Self|apply start_inv, W|apply start_origin, W|exact Al].
Qed.
Print Assumptions C107_one_thread_partial.

(** ** Examples *)

(** The variables a (0) and b (1) are parameters with the binding equations b = -a
    (region 0) and a = 5 (region 1), and region 2 reads b. *)
Definition chain : rmodel := mkRmodel [] [0; 1] [(0, 1); (1, 0)]
  [mkRegion [(10, IGet 0); (11, IOp 1 [10])] [11]; mkRegion [(20, IOp 0 [])] [20]; mkRegion [(30, IGet 1)] [30]].
Lemma chain_targets : forall v b, bound chain v b -> (v = 0 /\ b = 1) \/ (v = 1 /\ b = 0).
Proof. intros v b (_ & _ & [H|[H|[]]]); injection H as <- <-; auto. Qed.
Lemma chain_wf : well_formed chain.
Proof.
  constructor.
  - repeat constructor; cbn; intuition discriminate.
  - intros r [<-|[<-|[<-|[]]]]; repeat constructor; cbn; intuition discriminate.
  - intros r [<-|[<-|[<-|[]]]]; cbn; repeat split; try (intros z [<-|[]]; cbn; tauto); intros z [].
  - intros r [<-|[<-|[<-|[]]]] z [<-|[]]; cbn; tauto.
  - intros v b T. apply chain_targets in T as [(-> & ->)|(-> & ->)]; eexists; eexists; split; reflexivity.
Qed.
Lemma chain_itself : not_of_itself chain.
Proof.
  intros v b T (n & Hn & _). apply chain_targets in T as [(-> & ->)|(-> & ->)]; cbn in Hn; intuition discriminate.
Qed.
Definition zop (o : nat) (l : list Z) : Z := match o with 0 => 5%Z | _ => (- hd 0 l)%Z end.
Definition zvals (v : nat) : Z := match v with 0 => 5%Z | _ => (-5)%Z end.
Lemma chain_sat : satisfies Z zop chain (s_region (start chain)) zvals.
Proof. intros v b T. apply chain_targets in T as [(-> & ->)|(-> & ->)]; reflexivity. Qed.

(** Checking schedules of the first [n] tasks. *)
Definition idle (k : task) : bool := match k with TIdle _ => true | TClone _ _ _ _ _ => false end.
Fixpoint alone_b (m : rmodel) (n : nat) (schedule : list nat) (st : rstate) : bool :=
  match schedule with
  | [] => true
  | r :: s => Nat.ltb r n && forallb (fun t => Nat.eqb t r || idle (s_task st t)) (seq 0 n) &&
      match step m r st with Some st' => alone_b m n s st' | None => true end
  end.
Lemma step_other : forall m r st st' t, step m r st = Some st' -> t <> r -> s_task st' t = s_task st t.
Proof.
  intros m r st st' t E N. unfold step in E. destruct (s_task st r) as [[|g p]|g b [k|] mp p].
  - now injection E as <-.
  - destruct (lookup _ g) as [[w|]|]; try discriminate. destruct (target m w); injection E as <-; now apply upd_other.
  - destruct (lookup _ k); [|discriminate]. injection E as <-. now apply upd_other.
  - destruct (r_yields _); [discriminate|]. destruct (lookup mp _); [|discriminate]. injection E as <-. now apply upd_other.
Qed.
Lemma alone_b_spec : forall m n schedule st, alone_b m n schedule st = true -> (forall t, n <= t -> s_task st t = TIdle []) -> alone m schedule st.
Proof.
  intros m n. induction schedule as [|r s IH]; intros st H L; cbn in *; [exact Logic.I|]. apply andb_true_iff in H as (H & H3).
  apply andb_true_iff in H as (H1 & H2). apply Nat.ltb_lt in H1. split.
  - intros t N. destruct (Nat.lt_ge_cases t n) as [Lt|Ge]; [|exists []; auto].
    assert (Ht : In t (seq 0 n)) by (apply in_seq; lia). pose proof (proj1 (forallb_forall _ _) H2 t Ht) as B. apply orb_true_iff in B as [B|B].
    + apply Nat.eqb_eq in B. contradiction.
    + destruct (s_task st t); [eauto|discriminate].
  - destruct (step m r st) as [st'|] eqn:E; [|exact Logic.I]. apply IH; [exact H3|]. intros t Ht. rewrite (step_other m r st st' t E); [auto|lia].
Qed.

(** One thread, the region that reads b first: its copy of b reads a. *)
Example C107_one_thread_case : alone chain (repeat 2 4 ++ repeat 0 3 ++ [1]) (start chain) /\
  kept chain (repeat 2 4 ++ repeat 0 3 ++ [1]) /\
  exists st, run chain (repeat 2 4 ++ repeat 0 3 ++ [1]) (start chain) = Some st /\
    s_region st 2 = mkRegion [(31, IGet 0); (32, IOp 1 [31])] [32] /\ s_region st 0 = mkRegion [(33, IOp 0 []); (11, IOp 1 [33])] [11].
Proof.
  assert (A : alone chain (repeat 2 4 ++ repeat 0 3 ++ [1]) (start chain)).
  { apply (alone_b_spec chain 3); [vm_compute; reflexivity|]. intros t L. do 3 (destruct t as [|t]; [lia|]). destruct t; reflexivity. }
  split; [exact A|]. split; [exact (C107_one_thread_partial chain _ chain_wf chain_itself A)|].
  eexists. split; [vm_compute; reflexivity|]. split; vm_compute; reflexivity.
Qed.

(** With b = -6 instead, no binding equation has reads to replace: every schedule is
    right. *)
Definition flat : rmodel := mkRmodel [] [0; 1] [(0, 1); (1, 0)]
  [mkRegion [(10, IOp 2 []); (11, IOp 1 [10])] [11]; mkRegion [(20, IOp 0 [])] [20]; mkRegion [(30, IGet 1); (31, IGet 0); (32, IOp 3 [30; 31])] [32]].
Lemma flat_targets : forall v b, bound flat v b -> (v = 0 /\ b = 1) \/ (v = 1 /\ b = 0).
Proof. intros v b (_ & _ & [H|[H|[]]]); injection H as <- <-; auto. Qed.
Example C107_independent_case : forall schedule, kept flat schedule.
Proof.
  intros schedule. apply C107_independent_partial.
  - constructor.
    + repeat constructor; cbn; intuition discriminate.
    + intros r [<-|[<-|[<-|[]]]]; repeat constructor; cbn; intuition discriminate.
    + intros r [<-|[<-|[<-|[]]]]; cbn; repeat split; try (intros z [<-|[]]; cbn; tauto); try (intros z []). 
    + intros r [<-|[<-|[<-|[]]]] z [<-|[]]; cbn; tauto.
    + intros v b T. apply flat_targets in T as [(-> & ->)|(-> & ->)]; eexists; eexists; split; reflexivity.
  - intros v b T w (n & Hn & _). apply flat_targets in T as [(-> & ->)|(-> & ->)]; cbn in Hn; intuition discriminate.
Qed.
Example C107_independent_end : exists st, run flat (repeat 2 7) (start flat) = Some st /\ finished st /\
  s_region st 2 = mkRegion [(33, IOp 2 []); (34, IOp 1 [33]); (35, IOp 0 []); (32, IOp 3 [34; 35])] [32].
Proof.
  eexists. split; [vm_compute; reflexivity|]. split; [|vm_compute; reflexivity]. intros t. do 3 (destruct t as [|t]; [vm_compute; reflexivity|]). destruct t; vm_compute; reflexivity.
Qed.

(** ** Races *)

(** The task of region 2 copies the read of a out of b's equation; the task of that
    equation replaces the read; then the task of region 2 copies the negation, whose
    operand is now a result of the other region. *)
Definition race : list nat := [2; 2; 0; 0; 0; 2; 2].
Theorem C107_race_refuted : ~ forall m schedule st, well_formed m -> not_of_itself m -> run m schedule (start m) = Some st ->
  forall (V : Type) (op : nat -> list V -> V) x, satisfies V op m (s_region (start m)) x ->
    forall r, value V op x (s_region st r) = value V op x (s_region (start m) r).
Proof.
  intros C. assert (R : exists st, run chain race (start chain) = Some st /\ s_region st 2 = mkRegion [(31, IGet 0); (33, IOp 1 [32])] [33] /\
    s_region st 0 = mkRegion [(32, IOp 0 []); (11, IOp 1 [32])] [11]) by (eexists; split; [vm_compute; reflexivity|]; split; vm_compute; reflexivity).
  destruct R as (st & E & R2 & _). specialize (C chain race st chain_wf chain_itself E Z zop zvals chain_sat 2). rewrite R2 in C. discriminate.
Qed.
Print Assumptions C107_race_refuted.

(** The task of b's equation erases the read the other task is about to copy. *)
Theorem C107_erased_refuted : ~ forall m schedule, well_formed m -> not_of_itself m -> run m schedule (start m) <> None.
Proof. intros C. apply (C chain [2; 0; 0; 0; 2] chain_wf chain_itself). reflexivity. Qed.
Print Assumptions C107_erased_refuted.
