(** Properties of the index reduction (C48, C61 to C65). *)
From Coq Require Import ZArith List Bool Arith Lia Permutation.
From Verif Require Import RangeModel Result MatchModel MatchSpec MatchCaseProofs PantModel PantSpec
  PantProofs PantGraphProofs PantSafeProofs PantCaseProofs PantResultProofs.
Import ListNotations.
Local Open Scope nat_scope.

(** * C48: what is differentiated once is not differentiated again *)

(** Whatever the callbacks answer, the schedule, the local solver and the number of
    rounds, no index of an equation is differentiated twice. *)
Theorem C48_equations : forall solve U vdiff ediff fu sc pick fuel bfuel psc u ops st st' w,
  p_build U u ops = Ok st ->
  p_run solve U vdiff ediff fu sc pick fuel bfuel psc st = Ok (st', w) ->
  equations_once (p_log st').
Proof.
  intros solve U vdiff ediff fu sc pick fuel bfuel psc u ops st st' w B R.
  apply build_inv in B. destruct B as [I _]. apply run_inv in R; auto.
  exact (i_eonce _ _ _ _ _ _ R).
Qed.
Print Assumptions C48_equations.

(** For the variables, an index can only be differentiated again if, in the meantime,
    the callback has given the variable as the derivative of a variable. *)
Theorem C48_repeats : forall solve U vdiff ediff fu sc pick fuel bfuel psc u ops st st' w,
  p_build U u ops = Ok st ->
  p_run solve U vdiff ediff fu sc pick fuel bfuel psc st = Ok (st', w) ->
  forall a m b p, after (p_log st') a m b -> pe_var a = true -> pe_var b = true ->
    pe_id a = pe_id b -> In p (pe_ind a) -> In p (pe_ind b) ->
    exists c, In c m /\ pe_var c = true /\ pe_ans c = pe_id a.
Proof.
  intros solve U vdiff ediff fu sc pick fuel bfuel psc u ops st st' w B R.
  apply build_inv in B. destruct B as [I _]. apply run_inv in R; auto.
  exact (i_vonce _ _ _ _ _ _ R).
Qed.
Print Assumptions C48_repeats.

Theorem C48_variables_partial : forall solve U vdiff ediff fu sc pick fuel bfuel psc u ops st st' w,
  p_build U u ops = Ok st ->
  p_run solve U vdiff ediff fu sc pick fuel bfuel psc st = Ok (st', w) ->
  forward (p_log st') -> variables_once (p_log st').
Proof.
  intros solve U vdiff ediff fu sc pick fuel bfuel psc u ops st st' w B R.
  apply build_inv in B. destruct B as [I _]. apply run_inv in R; auto.
  now apply forward_once.
Qed.
Print Assumptions C48_variables_partial.

(** The run differentiates a variable and two equations, in both of their indices. *)
Lemma forward_cons : forall a log, forward log ->
  (pe_var a = true -> forall c, In c log -> pe_var c = true -> pe_ans c <> pe_id a) -> forward (a :: log).
Proof.
  intros a log F H x m c (l1 & l3 & E) Vx Vc. destruct l1 as [|y l1]; inversion E; subst.
  - apply H; auto. rewrite in_app_iff; cbn; auto.
  - apply (F x m c); auto. exists l1, l3. reflexivity.
Qed.
Lemma forward_nil : forward [].
Proof. intros a m c (l1 & l3 & E). destruct l1; discriminate. Qed.
Example C48_case : exists st st' w, p_build unit tt doubled = Ok st /\
  p_run solve_access unit vd2 ed2 some_fuels sched_seq never plenty plenty psched_seq st = Ok (st', w) /\
  forward (p_log st') /\ length (p_log st') = 3 /\ w = [].
Proof.
  destruct doubled_ok as (st & st' & w & B & R & L & W). exists st, st', w.
  split; auto. split; auto. rewrite L. split; [|split; auto]. unfold doubled_log.
  repeat (apply forward_cons; [|cbn; intros; intuition; subst; discriminate]). apply forward_nil.
Qed.

(** In general the variables may be differentiated again: here the variable 1 is
    removed when all its indices have been, then it is the derivative of another
    variable, it is added again, and it is differentiated in the same index. *)
Theorem C48_variables_refuted : exists st st' w,
  p_build unit tt returning = Ok st /\
  p_run solve_access unit vd ed some_fuels sched_seq never plenty plenty psched_seq st = Ok (st', w) /\
  ~ variables_once (p_log st').
Proof.
  destruct returning_ok as (st & st' & w & B & R & L & _). exists st, st', w.
  split; auto. split; auto. rewrite L. unfold returning_log. intro V.
  match type of V with variables_once (?a :: ?b :: ?c :: ?d :: ?e :: ?f :: ?g :: ?h :: ?i :: ?j :: ?k :: ?l) =>
    apply (V a [b; c; d; e; f; g; h; i; j] k i1);
      [exists [], l; reflexivity|reflexivity|reflexivity|reflexivity|cbn; auto|cbn; auto] end.
Qed.
Print Assumptions C48_variables_refuted.

(** * C61: the callbacks get sound arguments, and the loop trips no assertion *)

Lemma orders_fair : forall sc, orders_only sc -> fair sc.
Proof.
  intros sc [A B]. split; intros; split; apply Permutation_in; auto using Permutation_sym.
Qed.

(** The run goes wrong in the call of [match], or not at all. *)
Theorem C61_safe : forall solve U vdiff ediff fu sc pick fuel bfuel psc u ops st,
  local_solver solve -> answers vdiff ediff -> orders_only psc ->
  p_build U u ops = Ok st ->
  p_run solve U vdiff ediff fu sc pick fuel bfuel psc st = Bad ->
  p_match solve U fu sc pick st = Bad.
Proof.
  intros solve U vdiff ediff fu sc pick fuel bfuel psc u ops st Hs [Av Ae] Ho B R.
  pose proof (build_inv _ _ _ _ B) as [_ L].
  apply (build_good U (declared_variable ops) (declared_equation ops)) in B;
    [|intros; eexists; eauto|intros; eexists; eexists; eauto].
  pose proof (run_good solve (fun m o x H => proj1 (proj1 (Hs m) o H) x) U vdiff ediff Av Ae _ _
    fu sc pick fuel bfuel psc st (orders_fair _ Ho) B L) as G.
  now rewrite R in G.
Qed.
Print Assumptions C61_safe.

(** Each call is about a variable or equation that is known to the user, and hands
    over some of its indices, and no other. *)
Theorem C61_calls : forall solve U vdiff ediff fu sc pick fuel bfuel psc u ops st st' w,
  local_solver solve -> answers vdiff ediff -> orders_only psc ->
  p_build U u ops = Ok st ->
  p_run solve U vdiff ediff fu sc pick fuel bfuel psc st = Ok (st', w) ->
  known_calls (declared_variable ops) (declared_equation ops) (p_log st') /\
  forall e, In e (p_log st') -> pe_ind e <> [] /\ incl (pe_ind e) (pe_all e).
Proof.
  intros solve U vdiff ediff fu sc pick fuel bfuel psc u ops st st' w Hs [Av Ae] Ho B R.
  pose proof (build_inv _ _ _ _ B) as [_ L].
  apply (build_good U (declared_variable ops) (declared_equation ops)) in B;
    [|intros; eexists; eauto|intros; eexists; eexists; eauto].
  pose proof (run_good solve (fun m o x H => proj1 (proj1 (Hs m) o H) x) U vdiff ediff Av Ae _ _
    fu sc pick fuel bfuel psc st (orders_fair _ Ho) B L) as G.
  rewrite R in G. split; [apply (o_known _ _ _ _ G)|apply (o_inside _ _ _ _ G)].
Qed.
Print Assumptions C61_calls.
(** A run of twelve calls and more on three variables and fourteen equations. *)
Example C61_case : local_solver solve_access /\ answers vd ed /\ orders_only psched_seq /\
  exists st st' w, p_build unit tt returning = Ok st /\
    p_run solve_access unit vd ed some_fuels sched_seq never plenty plenty psched_seq st = Ok (st', w) /\
    12 < length (p_log st').
Proof.
  split; [exact solve_access_local|]. split; [split; cbn; auto; discriminate|].
  split; [exact psched_seq_ok|]. destruct returning_ok as (st & st' & w & B & R & L & _). exists st, st', w.
  split; auto. split; auto. rewrite L. cbn. lia.
Qed.

(** * C62: the end of the reduction *)

(** If the matching succeeds there is nothing to do. *)
Theorem C62_matched : forall solve U vdiff ediff fu sc pick fuel bfuel psc u ops st st' r,
  p_build U u ops = Ok st -> p_match solve U fu sc pick st = Ok (st', Some r) ->
  p_run solve U vdiff ediff fu sc pick fuel bfuel psc st = Ok (st', []) /\ p_log st' = [].
Proof.
  intros solve U vdiff ediff fu sc pick fuel bfuel psc u ops st st' r B M.
  unfold p_run. rewrite M. split; auto. apply match_state in M. destruct M as (g & _ & ->).
  apply build_inv in B. apply B.
Qed.
Print Assumptions C62_matched.
Example C62_matched_case : exists st st' r, p_build unit tt square = Ok st /\
  p_match solve_access unit some_fuels sched_seq never st = Ok (st', Some r).
Proof. exact square_ok. Qed.

(** An equation without variables is differentiated forever: after any number of
    rounds the worklist still has an equation, and there has been a call in each. *)
Theorem C62_end_refuted : exists st, p_build unit tt lonely = Ok st /\
  forall rounds, exists st' w,
    p_run solve_access unit vd ed3 some_fuels sched_seq never rounds plenty psched_seq st = Ok (st', w) /\
    w <> [] /\ length (p_log st') = rounds.
Proof.
  destruct lonely_start as (st & st1 & B & M & W & L & K). exists st. split; auto. intro n.
  destruct (stuck_forever n 0 st1 0 39 K) as (st2 & e & E & Le).
  exists st2, [e]. unfold p_run. rewrite M. cbn [bind]. rewrite W. split; [exact E|].
  split; [discriminate|]. rewrite Le, L. cbn. lia.
Qed.
Print Assumptions C62_end_refuted.

(** * C63: the derivative of an equation has the indices that the callback gives *)

(** It holds of the first answer with an id: the graph has an equation with that id,
    on the answered indices. *)
Theorem C63_first_partial : forall solve U vdiff ediff fu sc pick fuel bfuel psc u ops st st' w,
  local_solver solve -> answers vdiff ediff -> orders_only psc ->
  p_build U u ops = Ok st ->
  p_run solve U vdiff ediff fu sc pick fuel bfuel psc st = Ok (st', w) ->
  forall l1 a l2, p_log st' = l1 ++ a :: l2 -> pe_var a = false ->
    ~ declared_equation ops (pe_ans a) ->
    (forall b, In b l1 -> pe_var b = false -> pe_ans b <> pe_ans a) ->
    exists d, In (d, pe_ans a) (p_eid st') /\ mt_all (g_vx (p_g st') (ne d)) = pe_got a.
Proof.
  intros solve U vdiff ediff fu sc pick fuel bfuel psc u ops st st' w Hs [Av Ae] Ho B R.
  pose proof (build_inv _ _ _ _ B) as [_ L].
  apply (build_good U (declared_variable ops) (declared_equation ops)) in B;
    [|intros; eexists; eauto|intros; eexists; eexists; eauto].
  pose proof (run_good solve (fun m o x H => proj1 (proj1 (Hs m) o H) x) U vdiff ediff Av Ae _ _
    fu sc pick fuel bfuel psc st (orders_fair _ Ho) B L) as G.
  rewrite R in G. exact (o_got _ _ _ _ G).
Qed.
Print Assumptions C63_first_partial.
Example C63_case : exists st st' w l1 a l2, p_build unit tt doubled = Ok st /\
  p_run solve_access unit vd2 ed2 some_fuels sched_seq never plenty plenty psched_seq st = Ok (st', w) /\
  p_log st' = l1 ++ a :: l2 /\ l1 <> [] /\ pe_var a = false /\ ~ declared_equation doubled (pe_ans a) /\
  (forall b, In b l1 -> pe_var b = false -> pe_ans b <> pe_ans a).
Proof.
  destruct doubled_ok as (st & st' & w & B & R & L & W). exists st, st', w. eexists [_; _]. eexists. exists [].
  split; auto. split; auto. split; [rewrite L; reflexivity|]. split; [discriminate|].
  split; [reflexivity|]. split.
  - cbn. intros (s & a & H). cbn in H. intuition discriminate.
  - cbn. intros b H. intuition; subst; discriminate.
Qed.

(** It does not of the next ones: the indices that they give are not added. *)
Theorem C63_next_refuted : exists st st' w a p d,
  p_build unit tt returning = Ok st /\
  p_run solve_access unit vd ed some_fuels sched_seq never plenty plenty psched_seq st = Ok (st', w) /\
  In a (p_log st') /\ pe_var a = false /\ In p (pe_got a) /\
  (forall x, In (x, pe_ans a) (p_eid st') <-> x = d) /\ ~ In p (mt_all (g_vx (p_g st') (ne d))).
Proof.
  destruct returning_ok as (st & st' & w & B & R & L & F & M).
  assert (E : exists a, nth_error (p_log st') 5 = Some a /\ pe_var a = false /\ pe_got a = [i0] /\
      pe_ans a = 10).
  { rewrite L. eexists. split; [reflexivity|]. repeat split. }
  destruct E as (a & N & V & G & A).
  exists st, st', w, a, i0, 10. split; auto. split; auto. split; [eapply nth_error_In; eauto|].
  split; auto. split; [rewrite G; cbn; auto|]. rewrite A, M. split.
  - intro x. assert (Q : In (x, 10) (p_eid st') <-> In (x, 10) [(10, 10)]).
    { rewrite <- F. rewrite filter_In. cbn. intuition. }
    rewrite Q. cbn. split; [intros [H|[]]; now inversion H|intros ->; auto].
  - cbn. intros [H|[]]. discriminate.
Qed.
Print Assumptions C63_next_refuted.

(** * C64: only what is needed is differentiated *)

(** Here the index 1 of the variable is differentiated, while the equations are at the
    index 0, where they only read the index 0. *)
Theorem C64_needed_refuted : exists st st' w,
  p_build unit tt doubled = Ok st /\
  p_run solve_access unit vd2 ed2 some_fuels sched_seq never plenty plenty psched_seq st = Ok (st', w) /\
  w = [] /\ ~ needed doubled (p_log st').
Proof.
  destruct doubled_ok as (st & st' & w & B & R & L & W). exists st, st', w.
  split; auto. split; auto. split; auto. rewrite L. unfold doubled_log. intro N.
  match type of N with needed _ (?a :: _) => destruct (N a i1) as (b & i & Hb & Vb & Hi & s & acc & m & D & A & P) end;
    [cbn; auto|reflexivity|cbn; auto|].
  cbn in Hb. intuition; subst; cbn in *; try discriminate; intuition; subst;
    repeat match goal with E : PEqn _ _ _ = PEqn _ _ _ |- _ => inversion E; subst; clear E end;
    cbn in *; intuition; try discriminate;
    repeat match goal with E : (_, _) = (_, _) |- _ => inversion E; subst; clear E end;
    cbn in *; intuition discriminate.
Qed.
Print Assumptions C64_needed_refuted.

(** * C65: the system is reduced *)

(** If the loop ends, then from each declared equation the calls lead to an equation
    whose indices are all marked as matched; before the end, or to an equation that is
    still to be worked on. What is missing are the other equations that have been
    differentiated on the way. *)
Theorem C65_settled_partial : forall solve U vdiff ediff fu sc pick fuel bfuel psc u ops st st1 st' w,
  orders_only psc ->
  p_build U u ops = Ok st -> p_match solve U fu sc pick st = Ok (st1, None) ->
  p_run solve U vdiff ediff fu sc pick fuel bfuel psc st = Ok (st', w) ->
  forall id, declared_equation ops id ->
    leads (p_eid st') (p_log st')
      (fun d => In d w \/ mt_unmatched (g_vx (p_g st') (ne d)) = []) id.
Proof.
  intros solve U vdiff ediff fu sc pick fuel bfuel psc u ops st st1 st' w Ho B M R.
  exact (run_settled solve U vdiff ediff fu sc pick fuel bfuel psc u ops st st1 st' w
    (orders_fair _ Ho) B M R).
Qed.
Print Assumptions C65_settled_partial.
Example C65_case : orders_only psched_seq /\ exists st st1 st' w,
  p_build unit tt chain = Ok st /\
  p_match solve_access unit some_fuels sched_seq never st = Ok (st1, None) /\
  p_run solve_access unit vdc edc some_fuels sched_seq never plenty plenty psched_seq st = Ok (st', w) /\
  w = [] /\ length (p_log st') = 4 /\ declared_equation chain 0.
Proof.
  split; [exact psched_seq_ok|]. destruct chain_ok as (st & st1 & st' & w & B & M & R & W & L & _).
  exists st, st1, st', w. split; auto. split; auto. split; auto. split; auto. rewrite L.
  split; [reflexivity|]. eexists. eexists. cbn. auto 20.
Qed.

(** In general the reduction stops too early. Here x is given, x' = y, y' = w and
    w' = z: each equation can be solved for an unknown of its own. The run ends with
    x'' given, x'' = y' and y' = w, which are three equations for x'' and y'. *)
Theorem C65_reduced_refuted : exists st st' w,
  p_build unit tt chain = Ok st /\
  p_run solve_access unit vdc edc some_fuels sched_seq never plenty plenty psched_seq st = Ok (st', w) /\
  w = [] /\ (forall k, k < 4 -> reads chain k i0 k i0) /\ ~ matchable_system st'.
Proof.
  destruct chain_ok as (st & st1 & st' & w & B & M & R & W & L & E & G & A).
  exists st, st', w. split; auto. split; auto. split; auto. split.
  { intros k Hk. assert (C : k = 0 \/ k = 1 \/ k = 2 \/ k = 3) by lia.
    destruct C as [->|[->|[->| ->]]]; eexists; eexists; exists same; (split; [cbn; auto 20|]); cbn; auto. }
  intros (f & F1 & F2).
  assert (Lf : forall d, In d [9; 13; 14] -> left_equation st' d i0).
  { assert (Al : forall d id, In (d, id) (p_eid st') -> mt_all (g_vx (p_g st') (ne d)) = [i0]).
    { intros d id H. apply (in_map (fun x => mt_all (g_vx (p_g st') (ne (fst x))))) in H.
      rewrite A in H. cbn in H. intuition congruence. }
    assert (Ll : forall d id, In (d, id) (p_eid st') -> In id [2; 20; 11] -> left_equation st' d i0).
    { intros d id Hd Hi. split; [rewrite (Al d id Hd); cbn; auto|]. exists id. split; auto.
      intros a Ha Va Ia. exfalso. rewrite L in Ha. unfold chain_log in Ha. cbn in Ha, Hi.
      intuition; subst; discriminate. }
    intros d [<-|[<-|[<-|[]]]]; [apply (Ll 9 2)|apply (Ll 13 20)|apply (Ll 14 11)]; rewrite ?E; cbn; auto 20. }
  assert (Iv : forall d i v j, involves st' d i v j ->
    In ((d, None), (v, None), [(i0, i0)]) (map (fun e => (e, ents (ed_inc (g_ed (p_g st') e)))) (g_edges (p_g st')))
    /\ j = i0).
  { intros d i v j ([a b] & He & Ea & Eb & Hm). cbn in Ea, Eb. subst a b.
    assert (In ((d, None), (v, None), ents (ed_inc (g_ed (p_g st') ((d, None), (v, None)))))
      (map (fun e => (e, ents (ed_inc (g_ed (p_g st') e)))) (g_edges (p_g st')))) as H.
    { apply in_map_iff. eexists. split; [|exact He]. reflexivity. }
    set (es := ents _) in *. clearbody es.
    assert (es = [(i0, i0)]) as ->.
    { rewrite G in H. cbn in H. intuition congruence. }
    split; auto. destruct Hm as [Hm|[]]. now inversion Hm. }
  assert (K : forall d, In d [9; 13; 14] -> f d i0 = (3, i0) \/ f d i0 = (12, i0)).
  { intros d Hd. pose proof (F1 d i0 (Lf d Hd)) as H. apply Iv in H. destruct H as [H Hj].
    rewrite G in H. destruct (f d i0) as [v j]. cbn [fst snd] in *. subst j.
    destruct Hd as [<-|[<-|[<-|[]]]]; cbn in H; intuition (try congruence);
      repeat match goal with X : (_, _, _) = (_, _, _) |- _ => inversion X; subst; clear X end; auto. }
  assert (N : forall a b, In a [9; 13; 14] -> In b [9; 13; 14] -> f a i0 = f b i0 -> a = b).
  { intros a b Ha Hb Hab. exact (proj1 (F2 a i0 b i0 (Lf a Ha) (Lf b Hb) Hab)). }
  assert (I9 : In 9 [9; 13; 14]) by (cbn; auto). assert (I13 : In 13 [9; 13; 14]) by (cbn; auto).
  assert (I14 : In 14 [9; 13; 14]) by (cbn; auto).
  destruct (K 9 I9) as [K9|K9], (K 13 I13) as [K13|K13], (K 14 I14) as [K14|K14];
    first [discriminate (N 9 13 I9 I13 ltac:(congruence))
          |discriminate (N 9 14 I9 I14 ltac:(congruence))
          |discriminate (N 13 14 I13 I14 ltac:(congruence))].
Qed.
Print Assumptions C65_reduced_refuted.
