(** * C102: algorithm sections of a model *)
From Coq Require Import ZArith List Bool Arith Lia.
From Verif Require Import Result StmtModel StmtSpec CallModel CallSpec SecModel SecSpec SecProofs PropertiesStmt.
Import ListNotations.
Local Open Scope nat_scope.

(** The equations a section becomes hold for exactly the values of the variables
    for which the section, run from the start values of what it assigns, leaves
    each of those variables with the value it has.  Whatever the operators mean,
    wherever the variables are stored and whatever the order of the hash sets.
    Asked beyond the language: the statements are those of C89, and the start
    values of the variables the section assigns read only such variables. *)
Theorem C102_sections_partial : forall I addr order dec starts b,
  visits_once order -> covered_block dec [] false b -> starts_from starts b ->
  exists f, compile_section I addr order dec starts b = Ok f /\
    forall m, equations_hold f m <-> section_holds I starts b m.
Proof. exact section_correct. Qed.
Print Assumptions C102_sections_partial.

(** algorithm x := x + u; for i in 1:3 loop y := y + x; end for; with x(start = y),
    y(start = 10): x = 10 + u and y = 10 + 3 x. *)
Definition ex102 : block :=
  BCons (SAssign 0 (plus 0 2))
    (BCons (SFor [(7, [lit 1; lit 3])] (BCons (SAssign 1 (plus 1 0)) BNil)) BNil).
Example C102_sections_example :
  covered_block [0; 1; 2] [] false ex102 /\ starts_from [(0, CGet 1); (1, CNum 10)] ex102 /\
  visits_once (nodup Nat.eq_dec) /\
  (exists f, compile_section (fun _ => Z.add) (fun x => x) (nodup Nat.eq_dec) [0; 1; 2] [(0, CGet 1); (1, CNum 10)] ex102 = Ok f /\
     sf_inputs f = [2] /\ section_equations f = [(0, ([2], 0)); (1, ([2], 1))] /\
     call_returns f (fun _ => 99%Z) [5%Z] [15%Z; 55%Z]) /\
  section_holds (fun _ => Z.add) [(0, CGet 1); (1, CNum 10)] ex102 (fun x => nth x [15; 55; 5]%Z 0%Z).
Proof.
  assert (C : covered_block [0; 1; 2] [] false ex102).
  { assert (N : forall x y, In x [0; 1; 2] -> In y [0; 1; 2] -> forall ix, names_ok [0; 1; 2] ix (plus x y)).
    { intros x y Hx Hy ix z [<-|[<-|[]]]; right; assumption. }
    split; [|split].
    - split; [cbn; auto|]. split; [auto|]. apply N; cbn; auto.
    - split; [|split; [exact Logic.I|intros [E|E]; discriminate]].
      exists 7, (lit 1), (lit 3). split; [reflexivity|]. split; [intros z []|]. split; [intros z []|]. split; [intros z []|].
      split; [|split; [exact Logic.I|intros [E|E]; discriminate]].
      split; [cbn; auto|]. split; [intros [E|[]]; discriminate|]. apply N; cbn; auto.
    - intros [E|E]; discriminate. }
  assert (S : starts_from [(0, CGet 1); (1, CNum 10)] ex102).
  { split; [|split].
    - repeat constructor; cbn; intuition discriminate.
    - exists (fun x => match x with 0 => 1 | _ => 0 end). intros x d y [H|[H|[]]] Hy; injection H as <- <-; cbn in Hy; [|destruct Hy].
      destruct Hy as [<-|[]]. lia.
    - intros x d y _ [H|[H|[]]] Hy; injection H as <- <-; cbn in Hy; [|destruct Hy]. destruct Hy as [<-|[]]. cbn. auto. }
  assert (V : visits_once (nodup Nat.eq_dec)) by (intros l; split; [apply NoDup_nodup|intros x; apply nodup_In]).
  split; [exact C|]. split; [exact S|]. split; [exact V|].
  destruct (C102_sections_partial (fun _ => Z.add) (fun x => x) _ [0; 1; 2] _ ex102 V C S) as (f & E & H).
  assert (X : forall junk, exists fuel st', run_function (sf_graph f) fuel (frame [2] [5%Z] junk) = Ok st' /\ map st' (sf_outputs f) = [15; 55]%Z).
  { intros junk. vm_compute in E. injection E as <-. exists 40. eexists. split; [vm_compute; reflexivity|]. reflexivity. }
  assert (Y : sf_inputs f = [2] /\ section_equations f = [(0, ([2], 0)); (1, ([2], 1))]).
  { vm_compute in E. injection E as <-. split; reflexivity. }
  destruct Y as [Y1 Y2].
  split.
  - exists f. split; [exact E|]. split; [exact Y1|]. split; [exact Y2|].
    destruct (X (fun _ => 99%Z)) as (fuel & st' & R & M). exists fuel, st'. rewrite Y1. auto.
  - apply H. intros e He junk. rewrite Y2 in He. destruct (X junk) as (fuel & st' & R & M).
    exists [15; 55]%Z. split.
    + exists fuel, st'. destruct He as [<-|[<-|[]]]; cbn; rewrite Y1; auto.
    + destruct He as [<-|[<-|[]]]; reflexivity.
Qed.

(** A section that assigns a variable whose start value reads a variable the
    section does not assign (a parameter, say) is not compiled: the visit of the
    dependencies of the defaults follows a null pointer. *)
Theorem C102_start_reads_refuted : forall I addr order dec starts b x d y,
  visits_once order -> covered_block dec [] false b -> NoDup (map fst starts) ->
  In x (assigned_block b) -> In (x, d) starts -> In y (gets d) -> ~ In y (assigned_block b) ->
  compile_section I addr order dec starts b = Bad.
Proof. exact section_start_reads. Qed.
Print Assumptions C102_start_reads_refuted.
(** parameter Real p; Real x(start = p); algorithm x := 2; *)
Example C102_start_reads_example :
  compile_section (fun _ => Z.add) (fun x => x) (nodup Nat.eq_dec) [0; 1] [(0, CGet 1)] (BCons (SAssign 0 (lit 2)) BNil) = Bad /\
  section_holds (fun _ => Z.add) [(0, CGet 1)] (BCons (SAssign 0 (lit 2)) BNil) (fun x => nth x [2; 7]%Z 0%Z).
Proof.
  split; [reflexivity|]. exists (fun x => nth x [7; 7]%Z 0%Z). split; [split|].
  - intros x d [<-|[]] [[H|[]]|[_ H]]; [injection H as <-; reflexivity|]. exfalso. apply (H (CGet 1)). left. reflexivity.
  - intros x Hx. cbn in Hx. destruct x as [|x]; [exfalso; apply Hx; auto|]. reflexivity.
  - intros x [<-|[]]. eexists. split.
    + eapply F_next; [|constructor]. eapply E_cons; [|constructor]. constructor. reflexivity.
    + reflexivity.
Qed.
