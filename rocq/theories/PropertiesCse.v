(** * Properties of the elimination of repeated calls: C100

    The pass ([CseModel.v]) against the values of expressions ([CseSpec.v]). *)
From Coq Require Import ZArith List Bool Arith Lia.
From Verif Require Import RangeModel MDRangeModel Spec Result CseModel CseSpec CseProofs.
Import ListNotations.
Local Open Scope nat_scope.

(** x[i] is [at_ 0 (XInd 0)]. *)
Definition at_ (x : nat) (i : xexp) : xexp := XApp 0 [XVar x; i].
Definition box1 (a b : Z) : mdrange := [mkRange a b].
Definition eqn (call : xexp) (s : list mdrange) : ctmpl := {| ct_sides := [XVar 9; XApp 1 [call; XNum 5]]; ct_spaces := [s] |}.

Lemma inductions_check : forall ts,
  forallb (fun t => forallb (fun e => forallb (fun k => forallb (fun s : list mdrange =>
    negb (match s with [] => true | _ => false end) && forallb (fun r : mdrange => k <? length r) s)
    (ct_spaces t)) (uses e)) (ct_sides t)) ts = true -> inductions_ok ts.
Proof.
  intros ts H t e k s Ht He Hk Hs. rewrite forallb_forall in H. specialize (H t Ht).
  rewrite forallb_forall in H. specialize (H e He). rewrite forallb_forall in H. specialize (H k Hk).
  rewrite forallb_forall in H. specialize (H s Hs). apply andb_true_iff in H as [H1 H2]. split.
  - intros ->. discriminate H1.
  - intros r Hr. rewrite forallb_forall in H2. apply Nat.ltb_lt. exact (H2 r Hr).
Qed.
Lemma one_range_check : forall ts,
  forallb (fun t => forallb (fun s : list mdrange => (length s <=? 1) &&
    forallb (fun r : mdrange => negb (length r =? 0) && forallb (fun a => (rbegin a <? rend a)%Z) r) s) (ct_spaces t)) ts = true -> one_range ts.
Proof.
  intros ts H t s Ht Hs. rewrite forallb_forall in H. specialize (H t Ht).
  rewrite forallb_forall in H. specialize (H s Hs). apply andb_true_iff in H as [H1 H2]. split; [apply Nat.leb_le; exact H1|].
  apply Forall_forall. intros r Hr. rewrite forallb_forall in H2. specialize (H2 r Hr). apply andb_true_iff in H2 as [H2 H3].
  split; [destruct r; [discriminate H2|discriminate]|].
  apply Forall_forall; intros a Ha; rewrite forallb_forall in H3; apply Z.ltb_lt; exact (H3 a Ha).
Qed.
Ltac model_ok := first [apply inductions_check | apply one_range_check]; vm_compute; reflexivity.

(** Values in which x[i] is i and y[i] is i, f(a, b) is 10 a + b, the other
    operation subtracts, and a reduction is its body at 1 and 2. *)
Definition ex_mean : meaning Z :=
  {| m_num := fun z => z; m_var := fun x => Z.of_nat x;
     m_op := fun o l => match o, l with 0, [_; i] => i | _, [a; b] => (a - b)%Z | _, _ => 0%Z end;
     m_fun := fun _ l => match l with [a; b] => (10 * a + b)%Z | [a] => (3 * a)%Z | _ => 7%Z end;
     m_red := fun _ _ g => g [1; 2]%Z |}.
Lemma ex_mean_ext : extensional ex_mean.
Proof. intros a l g h H. apply H. Qed.

(** ** The elements that replace the calls *)

(** In every iteration of its equation, the element that replaces a call exists
    and holds the value of the call.  Missing: calls with two inductions in the
    places where the first call of the group has one
    ([C100_two_inductions_refuted]), equations with several ranges
    ([C100_several_ranges_refuted]), reductions that are nested or have several
    inductions ([C100_reduction_arguments_refuted]). *)
Theorem C100_replaced_partial : forall ts cs c rep s0 us en sub,
  inductions_ok ts -> one_range ts -> call_cse ts = Ok cs -> In c cs ->
  cs_uses c = (rep, s0) :: us -> In (en, sub) (cs_uses c) ->
  plain false (en_call rep) = true -> plain false (en_call en) = true -> follows (en_call rep) (en_call en) ->
  (exists t e, nth_error ts (fst (en_id en)) = Some t /\ In e (ct_sides t) /\ In (en_call en) (calls_of e)) /\
  forall V (M : meaning V) v p, extensional M -> driven M c v -> iterates ts (en_id en) p ->
    element (cs_sizes c) (subscripts sub p) /\ v (subscripts sub p) = xeval M p [] (en_call en).
Proof.
  intros ts cs c rep s0 us en sub Hi Ho E Hc Hu Hen Pr Pe F.
  destruct (call_cse_group ts cs c Hi E Hc) as (g & Gg & _ & Eg & Cg).
  destruct g as [|rep' rest]; [discriminate Eg|].
  destruct (emit_parts (rep' :: rest) c rep' rest eq_refl Gg Eg) as (r & box & bg & P1 & P2 & P3 & P4 & P5 & P6 & P7 & P8).
  assert (rep' = rep).
  { rewrite Hu in P8. inversion P8 as [|e0 u0 l0 m0 [K0 _] _ Y1 Y2]. cbn in K0. congruence. }
  subst rep'.
  assert (Hg : In en (rep :: rest)).
  { clear - P8 Hen. induction P8 as [|e u l m [K _] _ IH]; [destruct Hen|].
    destruct Hen as [->|Hen]; [left; symmetry; exact K|right; auto]. }
  split.
  - destruct (Cg en Hg) as (t & s & l & K1 & K2 & K3 & K4 & K5). apply nth_error_In in K4.
    apply in_flat_map in K4 as (e & He & Hce). eauto.
  - intros V M v p X D It. apply (one_value (rep :: rest) c rep rest eq_refl Gg Eg V M v en sub p); auto.
    intros r' Er. apply (comes_iterates ts en p r' Ho (Cg en Hg) It Er).
Qed.
Print Assumptions C100_replaced_partial.

(** f(x[i], y[j]) at [2,5) x [0,2), and the same with the inductions swapped at
    [0,2) x [2,5). *)
Definition ts_swap : list ctmpl :=
  [eqn (XCall 0 [at_ 0 (XInd 0); at_ 1 (XInd 1)]) [[mkRange 2 5; mkRange 0 2]];
   eqn (XCall 0 [at_ 0 (XInd 1); at_ 1 (XInd 0)]) [[mkRange 0 2; mkRange 2 5]]].
Example C100_replaced_example :
  inductions_ok ts_swap /\ one_range ts_swap /\
  exists c rep en, call_cse ts_swap = Ok [c] /\ cs_uses c = [(rep, [(0, (-2)%Z); (1, 0%Z)]); (en, [(1, (-2)%Z); (0, 0%Z)])] /\
    plain false (en_call rep) = true /\ plain false (en_call en) = true /\ follows (en_call rep) (en_call en) /\
    iterates ts_swap (en_id en) [1; 4]%Z /\ driven ex_mean c (fun idx => 10 * (nth 0 idx 0 + 2) + nth 1 idx 0)%Z.
Proof.
  split; [model_ok|]. split; [model_ok|]. eexists. eexists. eexists.
  split; [vm_compute; reflexivity|]. split; [reflexivity|]. split; [reflexivity|]. split; [reflexivity|]. split; [|split].
  - intros n m k i j. cbn. destruct n as [|[|[|n]]]; destruct m as [|[|[|m]]]; cbn; congruence.
  - exists (eqn (XCall 0 [at_ 0 (XInd 1); at_ 1 (XInd 0)]) [[mkRange 0 2; mkRange 2 5]]), [[mkRange 0 2; mkRange 2 5]].
    split; [reflexivity|]. split; [left; reflexivity|]. eexists. split; [left; reflexivity|].
    repeat constructor; cbn; lia.
  - intros q Hq. inversion Hq as [|x a q1 r1 Hx Hq1]; subst. inversion Hq1 as [|y b q2 r2 Hy Hq2]; subst. inversion Hq2; subst. cbn -[Z.mul]. lia.
Qed.

(** The new variable has as many elements as its equation has iterations, and
    each is determined by one of them: the model stays balanced. *)
Theorem C100_balanced : forall ts cs c idx,
  inductions_ok ts -> call_cse ts = Ok cs -> In c cs -> element (cs_sizes c) idx ->
  exists q, in_box q (cs_box c) /\ subscripts (cs_lhs c) q = idx /\
    forall q', in_box q' (cs_box c) -> subscripts (cs_lhs c) q' = idx -> q' = q.
Proof.
  intros ts cs c idx Hi E Hc He. destruct (call_cse_group ts cs c Hi E Hc) as (g & Gg & _ & Eg & Cg).
  destruct g as [|rep rest]; [discriminate Eg|]. apply (one_cover (rep :: rest) c rep rest eq_refl Gg Eg idx He).
Qed.
Print Assumptions C100_balanced.
Example C100_balanced_example : exists c, call_cse ts_swap = Ok [c] /\ element (cs_sizes c) [2; 1]%Z /\
  subscripts (cs_lhs c) [4; 1]%Z = [2; 1]%Z.
Proof. eexists. split; [vm_compute; reflexivity|]. split; [repeat constructor; cbn; lia|reflexivity]. Qed.

(** The pass succeeds on such models.  Missing: see the refutations below. *)
Theorem C100_succeeds_partial : forall ts,
  inductions_ok ts -> one_range ts ->
  (forall t e c, In t ts -> In e (ct_sides t) -> In c (calls_of e) -> plain false c = true) ->
  exists cs, call_cse ts = Ok cs.
Proof. exact call_cse_ok. Qed.
Print Assumptions C100_succeeds_partial.
Example C100_succeeds_example :
  forall t e c, In t ts_swap -> In e (ct_sides t) -> In c (calls_of e) -> plain false c = true.
Proof.
  intros t e c Ht He Hc. assert (H : forallb (fun t => forallb (fun e => forallb (plain false) (calls_of e)) (ct_sides t)) ts_swap = true) by reflexivity.
  rewrite forallb_forall in H. specialize (H t Ht). rewrite forallb_forall in H. specialize (H e He).
  rewrite forallb_forall in H. exact (H c Hc).
Qed.

(** ** Refutations *)

(** f(x[k], y[k]) first, f(x[i], y[j]) second: the second is replaced by the
    element of f(x[i], y[i]). *)
Theorem C100_two_inductions_refuted : exists ts c en sub v p,
  inductions_ok ts /\ one_range ts /\ call_cse ts = Ok [c] /\ In (en, sub) (cs_uses c) /\
  plain false (en_call en) = true /\ driven ex_mean c v /\ iterates ts (en_id en) p /\
  v (subscripts sub p) <> xeval ex_mean p [] (en_call en).
Proof.
  set (e1 := XCall 0 [at_ 0 (XInd 0); at_ 1 (XInd 0)]). set (e2 := XCall 0 [at_ 0 (XInd 0); at_ 1 (XInd 1)]).
  exists [eqn e1 [box1 0 3]; eqn e2 [[mkRange 0 3; mkRange 0 3]]].
  eexists. exists {| en_id := (1, 0); en_call := e2; en_ranges := Some [mkRange 0 3; mkRange 0 3]; en_inds := [0; 0] |}, [(0, 0%Z); (0, 0%Z)],
    (fun idx => 11 * nth 1 idx 0)%Z, [0; 1]%Z.
  split; [model_ok|]. split; [model_ok|]. split; [vm_compute; reflexivity|]. split; [right; left; reflexivity|].
  split; [reflexivity|]. split; [|split].
  - intros q Hq. inversion Hq as [|x a q1 r1 Hx Hq1]; subst. inversion Hq1 as [|y b q2 r2 Hy Hq2]; subst. inversion Hq2; subst. cbn -[Z.mul]. lia.
  - exists (eqn e2 [[mkRange 0 3; mkRange 0 3]]), [[mkRange 0 3; mkRange 0 3]].
    split; [reflexivity|]. split; [left; reflexivity|]. eexists. split; [left; reflexivity|]. repeat constructor; cbn; lia.
  - cbn. lia.
Qed.
Print Assumptions C100_two_inductions_refuted.

(** An equation with the ranges [0,3) and [10,12): its call is replaced by
    elements that do not exist; and a call that uses no induction is in its group
    twice, and is erased twice. *)
Theorem C100_several_ranges_refuted :
  (exists ts c en sub p,
     inductions_ok ts /\ call_cse ts = Ok [c] /\ In (en, sub) (cs_uses c) /\ plain false (en_call en) = true /\
     iterates ts (en_id en) p /\ ~ element (cs_sizes c) (subscripts sub p)) /\
  (exists ts, inductions_ok ts /\ call_cse ts = Bad).
Proof.
  split.
  - set (e1 := XCall 0 [at_ 0 (XInd 0)]). exists [eqn e1 [box1 0 3]; eqn e1 [box1 0 3; box1 10 12]].
    eexists. exists {| en_id := (1, 0); en_call := e1; en_ranges := Some (box1 0 3); en_inds := [0] |}, [(0, 0%Z)], [10%Z].
    split; [model_ok|]. split; [vm_compute; reflexivity|]. split; [right; left; reflexivity|]. split; [reflexivity|]. split.
    + exists (eqn e1 [box1 0 3; box1 10 12]), [box1 0 3; box1 10 12]. split; [reflexivity|]. split; [left; reflexivity|].
      exists (box1 10 12). split; [right; left; reflexivity|]. repeat constructor; cbn; lia.
    + intros K. inversion K as [|? ? ? ? K1]; subst. cbn in K1. lia.
  - exists [eqn (XCall 0 [XVar 0]) [box1 0 3; box1 10 12]]. split; [model_ok|]. vm_compute. reflexivity.
Qed.
Print Assumptions C100_several_ranges_refuted.

(** f(sum(i - j)) and f(sum(j - i)) are taken for the same call. *)
Theorem C100_reduction_arguments_refuted : exists ts c en sub v p,
  inductions_ok ts /\ one_range ts /\ call_cse ts = Ok [c] /\ In (en, sub) (cs_uses c) /\
  driven ex_mean c v /\ iterates ts (en_id en) p /\
  v (subscripts sub p) <> xeval ex_mean p [] (en_call en).
Proof.
  set (red := fun a b => XCall 0 [XRed 0 [XVar 2; XVar 2] (XApp 1 [XArg 0 a; XArg 0 b])]).
  exists [eqn (red 0 1) []; eqn (red 1 0) []]. eexists.
  exists {| en_id := (1, 0); en_call := red 1 0; en_ranges := None; en_inds := [] |}, [], (fun _ => (-3)%Z), [].
  split; [model_ok|]. split; [model_ok|]. split; [vm_compute; reflexivity|]. split; [right; left; reflexivity|]. split; [|split].
  - intros q Hq. inversion Hq; subst. reflexivity.
  - exists (eqn (red 1 0) []), []. split; [reflexivity|]. split; [left; reflexivity|reflexivity].
  - cbn. lia.
Qed.
Print Assumptions C100_reduction_arguments_refuted.

(** The same call of an induction of a reduction in two reductions, as in
    sum(f(k) for k in r) twice: its copy uses an induction that is not there. *)
Theorem C100_call_in_reduction_refuted : exists ts,
  inductions_ok ts /\ one_range ts /\ call_cse ts = Bad.
Proof.
  exists [eqn (XRed 0 [XVar 2] (XCall 0 [XArg 0 0])) []; eqn (XRed 0 [XVar 2] (XCall 0 [XArg 0 0])) []].
  split; [model_ok|]. split; [model_ok|]. vm_compute. reflexivity.
Qed.
Print Assumptions C100_call_in_reduction_refuted.
