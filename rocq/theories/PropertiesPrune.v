(** The removal of the variables the outputs do not need. *)
From Coq Require Import ZArith List Bool Arith Lia.
From Verif Require Import Result PruneModel PruneSpec PruneProofs.
Import ListNotations.
Local Open Scope nat_scope.

Section Prune.
Context {K I : Type}.
Implicit Type m : pmodel K I.

Lemma prune_ok m : well_formed m -> pm_outputs m <> [] ->
  exists used, (forall v, isUsed used v = true <-> needed m v) /\ prune m = Ok (removeUnused used m).
Proof.
  intros W O. destruct (used_ok m W) as (used & E & H). exists used. split.
  - intros v. rewrite <- H. apply PostOrderProofs.memb_in.
  - unfold prune. destruct (pm_outputs m); [easy|]. now rewrite E.
Qed.

(** [C105]  What is left is what the outputs need: the needed variables, and
    with them the equations that are solved for them, their start values and
    their bindings, in the order they had. The outputs are all left. *)
Theorem C105_kept m : well_formed m -> pm_outputs m <> [] ->
  exists (keep : nat -> bool) r, prune m = Ok r /\ (forall v, keep v = true <-> needed m v) /\
    pm_vars r = filter keep (pm_vars m) /\ pm_outputs r = pm_outputs m /\ pm_ders r = pm_ders m /\
    pm_initial r = filter (fun q => keep (pe_match q)) (pm_initial m) /\
    pm_main r = filter (fun q => keep (pe_match q)) (pm_main m) /\
    pm_starts r = filter (fun s => keep (fst s)) (pm_starts m) /\
    pm_bindings r = filter (fun s => keep (fst s)) (pm_bindings m).
Proof.
  intros W O. destruct (prune_ok m W O) as (used & H & E). exists (isUsed used), (removeUnused used m).
  split; [exact E|]. split; [exact H|]. repeat (split; [reflexivity|]). reflexivity.
Qed.

(** [C105]  Without outputs nothing is removed. *)
Theorem C105_no_outputs m : pm_outputs m = [] -> prune m = Ok m.
Proof. intros H. unfold prune. now rewrite H. Qed.

(** [C105, partial]  What is left has the declarations of all the variables its
    equations read, provided that the start values of needed variables read needed
    variables only. Missing: the other start values, see the refutation. *)
Lemma declared_iff m r : well_formed m -> declared m -> pm_outputs m <> [] -> prune m = Ok r ->
  (declared r <-> forall s v, In s (pm_starts m) -> needed m (fst s) -> reads (snd s) v -> needed m v).
Proof.
  intros W (_ & _ & Ds) O E. destruct (prune_ok m W O) as (used & H & E'). rewrite E in E'. injection E' as ->.
  assert (Hv : forall v, In v (filter (isUsed used) (pm_vars m)) <-> needed m v).
  { intros v. rewrite filter_In, H. split; [tauto|]. intros N. split; [exact (needed_vars m W v N)|exact N]. }
  unfold declared. cbn [removeUnused pm_outputs pm_vars pm_starts]. split.
  - intros (_ & _ & D) s v Hs N R. apply Hv, (D s); [|exact R]. apply filter_In. split; [exact Hs|now apply H].
  - intros D. split; [intros v Hi; apply Hv, needed_output, Hi|]. split.
    + intros q v Hq R. apply Hv. unfold equation_of in Hq. cbn [removeUnused pm_initial pm_main] in Hq.
      rewrite !filter_In, !H in Hq. apply (needed_read m q); [|tauto|exact R]. unfold equation_of. tauto.
    + intros s Hs. apply filter_In in Hs as (Hs & N). apply H in N. split; [now apply Hv|]. intros v R. apply Hv. exact (D s v Hs N R).
Qed.
Theorem C105_declared_partial m : well_formed m -> declared m -> pm_outputs m <> [] ->
  (forall s v, In s (pm_starts m) -> needed m (fst s) -> reads (snd s) v -> needed m v) ->
  exists r, prune m = Ok r /\ declared r.
Proof.
  intros W D O S. destruct (prune_ok m W O) as (used & _ & E). eexists. split; [exact E|]. now apply (declared_iff m).
Qed.

(** [C105, refuted]  A start value of a needed variable that reads a variable the
    equations do not need is left with a variable that is not declared. *)
Theorem C105_start_refuted m s v : well_formed m -> declared m -> pm_outputs m <> [] ->
  In s (pm_starts m) -> needed m (fst s) -> reads (snd s) v -> ~ needed m v ->
  exists r, prune m = Ok r /\ In s (pm_starts r) /\ ~ In v (pm_vars r).
Proof.
  intros W D O Hs N R Nv. destruct (prune_ok m W O) as (used & H & E). eexists. split; [exact E|].
  cbn [removeUnused pm_starts pm_vars]. rewrite !filter_In, !H. tauto.
Qed.

Section Values.
Variables (V : Type) (leaf : K -> I -> V) (op : nat -> list V -> V).
Variables ieq meq der : V -> V -> Prop.
Notation value := (value V leaf op).
Notation solution := (solution V leaf op ieq meq der).

Lemma value_agree (x y : nat -> I -> V) p e : (forall v i, reads e v -> x v i = y v i) -> value x p e = value y p e.
Proof.
  revert e.
  assert (G : forall n (e : pexpr K I), psize e < n -> (forall v i, reads e v -> x v i = y v i) -> value x p e = value y p e).
  { induction n as [|n IH]; intros e L H; [lia|]. destruct e as [k|v s|o args]; [reflexivity| |].
    - cbn. apply H. constructor.
    - cbn. f_equal. apply map_ext_in. intros a Ha. apply IH.
      + pose proof (psize_arg o args a Ha). lia.
      + intros v i R. apply H. exact (reads_arg o args a v Ha R). }
  intros e H. exact (G (S (psize e)) e (Nat.lt_succ_diag_r _) H).
Qed.

(** [C105]  Every solution is a solution of what is left, and what is left says
    nothing about the variables that were removed. *)
Theorem C105_solutions m r x : well_formed m -> prune m = Ok r -> solution m x ->
  solution r x /\ forall y, (forall v i, In v (pm_vars r) -> x v i = y v i) -> solution r y.
Proof.
  intros W E Sx. destruct (pm_outputs m) as [|o os] eqn:Eo.
  - rewrite (C105_no_outputs m Eo) in E. injection E as <-. split; [exact Sx|]. intros y A. destruct Sx as [Si Sm Sd]. constructor.
    + intros q Hq p Hp. rewrite <- !(value_agree x y); [exact (Si q Hq p Hp)| |]; intros v i R; apply A, (wf_reads m W q v); (left; exact Hq) || (unfold eq_reads; tauto).
    + intros q Hq p Hp. rewrite <- !(value_agree x y); [exact (Sm q Hq p Hp)| |]; intros v i R; apply A, (wf_reads m W q v); (right; exact Hq) || (unfold eq_reads; tauto).
    + intros v d Hd Hv i. destruct (wf_ders m W v d Hd) as (_ & Hd' & _). rewrite <- (A v i Hv), <- (A d i Hd'). exact (Sd v d Hd Hv i).
  - destruct (prune_ok m W) as (used & H & E'); [now rewrite Eo|]. rewrite E in E'. injection E' as ->.
    assert (Hv : forall v, In v (filter (isUsed used) (pm_vars m)) <-> needed m v).
    { intros v. rewrite filter_In, H. split; [tauto|]. intros N. split; [exact (needed_vars m W v N)|exact N]. }
    assert (Sr : solution (removeUnused used m) x).
    { destruct Sx as [Si Sm Sd]. constructor; cbn [removeUnused pm_initial pm_main pm_ders pm_vars].
      - intros q Hq. apply filter_In in Hq. apply Si, Hq.
      - intros q Hq. apply filter_In in Hq. apply Sm, Hq.
      - intros v d Hd Hi i. apply filter_In in Hi. now apply Sd. }
    split; [exact Sr|]. intros y A. cbn [removeUnused pm_vars] in A.
    assert (Rq : forall q v i, equation_of m q -> needed m (pe_match q) -> eq_reads q v -> x v i = y v i).
    { intros q v i Hq N R. apply A, Hv. exact (needed_read m q v Hq N R). }
    destruct Sr as [Si Sm Sd]. constructor; cbn [removeUnused pm_initial pm_main pm_ders pm_vars] in *.
    + intros q Hq p Hp. pose proof (Si q Hq p Hp) as Hh. apply filter_In in Hq as (Hq & N). apply H in N.
      rewrite <- !(value_agree x y); [exact Hh| |]; intros v i R; apply (Rq q v i); auto; (now left) || (now right).
    + intros q Hq p Hp. pose proof (Sm q Hq p Hp) as Hh. apply filter_In in Hq as (Hq & N). apply H in N.
      rewrite <- !(value_agree x y); [exact Hh| |]; intros v i R; apply (Rq q v i); auto; (now left) || (now right).
    + intros v d Hd Hi i. pose proof (Sd v d Hd Hi i) as Hh. apply Hv in Hi. pose proof (needed_derivative m v d Hd Hi) as Nd.
      rewrite <- (A v i), <- (A d i); [exact Hh| |]; now apply Hv.
Qed.

(** [C105]  When what is left determines its variables, the outputs have the
    values of the solutions of the whole model. *)
Theorem C105_outputs m r x y : well_formed m -> prune m = Ok r ->
  (forall a b, solution r a -> solution r b -> forall v i, In v (pm_vars r) -> a v i = b v i) ->
  solution m x -> solution r y -> forall v i, In v (pm_outputs m) -> x v i = y v i.
Proof.
  intros W E U Sx Sy v i Hv. destruct (C105_solutions m r x W E Sx) as (Sx' & _). apply (U x y Sx' Sy).
  destruct (pm_outputs m) as [|o os] eqn:Eo; [destruct Hv|].
  destruct (prune_ok m W) as (used & H & E'); [now rewrite Eo|]. rewrite E in E'. injection E' as ->.
  cbn [removeUnused pm_vars]. apply filter_In. rewrite H. split; [|apply needed_output; now rewrite Eo].
  apply (wf_outputs m W). now rewrite Eo.
Qed.
End Values.
End Prune.
Print Assumptions C105_kept.
Print Assumptions C105_no_outputs.
Print Assumptions C105_declared_partial.
Print Assumptions C105_start_refuted.
Print Assumptions C105_solutions.
Print Assumptions C105_outputs.

(** ** A case
    parameter p = 2, state x with derivative dx and x(start = p), output y, and z:
    initial: p = 2;  dx = -x, y = x + 1, z = x + p. The variables are p = 0, x = 1,
    dx = 2, y = 3, z = 4; x is a state and has the initial equation x = 7. *)
Definition rd (v : nat) : pexpr Z unit := PRead v (fun p => p).
Definition case_model (start : pexpr Z unit) : pmodel Z unit :=
  mkPmodel [0; 1; 2; 3; 4] [3] [(1, 2)]
    [mkPeq 0 [tt] (rd 0) (PLeaf 2%Z); mkPeq 1 [tt] (rd 1) (PLeaf 7%Z)]
    [mkPeq 2 [tt] (rd 2) (POp 0 [rd 1]); mkPeq 3 [tt] (rd 3) (POp 1 [rd 1; PLeaf 1%Z]); mkPeq 4 [tt] (rd 4) (POp 1 [rd 1; rd 0])]
    [(1, start); (4, rd 0)] [].
Ltac reading := repeat match goal with
  | H : False |- _ => destruct H
  | H : In _ _ |- _ => cbn in H
  | H : _ \/ _ |- _ => destruct H; subst
  | H : reads _ _ |- _ => inversion H; clear H; subst
  end.
Lemma case_wf start : well_formed (case_model start).
Proof.
  constructor.
  - repeat (constructor; [cbn; lia|]). constructor.
  - intros v H. cbn in *. tauto.
  - intros q [H|H]; cbn in H; repeat (destruct H as [<-|H]; [left; constructor|]); destruct H.
  - intros q v [H|H] R; cbn in H; repeat (destruct H as [<-|H]; [destruct R as [R|R]; cbn [pe_left pe_right] in R; reading; cbn; tauto|]); destruct H.
  - intros v d [H|[]]. injection H as <- <-. cbn. lia.
  - intros v d d' [H|[]] [H'|[]]. congruence.
  - intros v v' d [H|[]] [H'|[]]. congruence.
Qed.
(** What the outputs need: x, dx and y. *)
Example C105_case : prune (case_model (PLeaf 0%Z)) =
  Ok (mkPmodel [1; 2; 3] [3] [(1, 2)] [mkPeq 1 [tt] (rd 1) (PLeaf 7%Z)]
    [mkPeq 2 [tt] (rd 2) (POp 0 [rd 1]); mkPeq 3 [tt] (rd 3) (POp 1 [rd 1; PLeaf 1%Z])] [(1, PLeaf 0%Z)] []).
Proof. reflexivity. Qed.
(** The start value of x reads p, which is removed. *)
Example C105_start_case : declared (case_model (rd 0)) /\ needed (case_model (rd 0)) 1 /\ ~ needed (case_model (rd 0)) 0.
Proof.
  split; [|split].
  - split; [intros v H; cbn in *; tauto|]. split; [exact (wf_reads _ (case_wf (rd 0)))|].
    intros s [<-|[<-|[]]]; (split; [cbn; tauto|]); cbn [snd]; intros v R; inversion R; subst; cbn; auto.
  - apply (needed_read _ (mkPeq 3 [tt] (rd 3) (POp 1 [rd 1; PLeaf 1%Z]))); [right; cbn; auto|constructor; cbn; auto|].
    right. apply reads_arg with (rd 1); [now left|constructor].
  - intros H. destruct (used_ok _ (case_wf (rd 0))) as (used & E & U). apply U in H. cbv in E. injection E as <-. cbn in H. lia.
Qed.
(** The values are numbers, both kinds of equations are equalities, and nothing
    is asked of the derivative: the whole model has a solution, and what is left
    has one only. *)
Definition case_op (o : nat) (l : list Z) : Z :=
  match o, l with 0, [a] => (- a)%Z | 1, [a; b] => (a + b)%Z | _, _ => 0%Z end.
Example C105_solution_case :
  solution Z (fun k _ => k) case_op eq eq (fun _ _ => True) (case_model (PLeaf 0%Z)) (fun v _ => nth v [2; 7; -7; 8; 9]%Z 0%Z) /\
  forall r, prune (case_model (PLeaf 0%Z)) = Ok r -> forall a b,
    solution Z (fun k _ => k) case_op eq eq (fun _ _ => True) r a -> solution Z (fun k _ => k) case_op eq eq (fun _ _ => True) r b ->
    forall v i, In v (pm_vars r) -> a v i = b v i.
Proof.
  split.
  - constructor; try (intros; exact Logic.I); intros q Hq p Hp; cbn in Hq;
      repeat (destruct Hq as [<-|Hq]; [reflexivity|]); destruct Hq.
  - intros r E a b [Ai Am _] [Bi Bm _]. rewrite C105_case in E. injection E as <-. cbn in *.
    pose proof (Ai _ (or_introl eq_refl) tt (or_introl eq_refl)) as A1. pose proof (Bi _ (or_introl eq_refl) tt (or_introl eq_refl)) as B1.
    pose proof (Am _ (or_introl eq_refl) tt (or_introl eq_refl)) as A2. pose proof (Bm _ (or_introl eq_refl) tt (or_introl eq_refl)) as B2.
    pose proof (Am _ (or_intror (or_introl eq_refl)) tt (or_introl eq_refl)) as A3. pose proof (Bm _ (or_intror (or_introl eq_refl)) tt (or_introl eq_refl)) as B3.
    cbn in *. intros v [] Hv. repeat (destruct Hv as [<-|Hv]; [congruence|]). destruct Hv.
Qed.
