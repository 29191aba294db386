(** The systems that the properties of the index reduction are tried on, and the
    system on which it does not end. *)
From Coq Require Import ZArith List Bool Arith Lia Permutation.
From Verif Require Import RangeModel Result ListTac MatchModel MatchSpec MatchSetProofs
  MatchCaseProofs PantModel PantSpec PantProofs.
Import ListNotations.
Local Open Scope nat_scope.

Definition plenty : nat := 40.
Definition some_fuels : fuels := Fuels plenty plenty plenty.
Definition i0 : point := [0%Z].
Definition i1 : point := [1%Z].
Definition both : pset := [i0; i1].
Definition same : macc := AccFun (fun i => [i]).
Definition never : msys -> mid -> bool := fun _ _ => false.
(** The schedule of a single thread. *)
Definition psched_seq : psched :=
  PSched (fun _ _ _ l => sort_paths l) (fun _ k _ => k) (fun _ l => l).
Lemma psched_seq_ok : orders_only psched_seq.
Proof. split; cbn; intros; auto. apply sort_paths_perm. Qed.

(** * A run in which a variable goes and comes back *)

(** The derivative of the variable [n] is the variable [n + 1], for both indices. *)
Definition vd : unit -> nat -> pset -> unit * (nat * pset) := fun _ id _ => (tt, (S id, both)).
Fixpoint upto (v : nat) (a : macc) (n : nat) : list (nat * macc) :=
  match n with O => [(v, a)] | S n' => (v + n, a) :: upto v a n' end.
(** The equations 0, 1 and 5 are about the variable 1, the others about the variable 0;
    the equation [n + 10] is the derivative of the equation [n]. *)
Definition accs (k : nat) : list (nat * macc) :=
  let n := k / 10 in
  match k mod 10 with
  | 0 => upto 1 same n | 5 => upto 1 (AccConst i1) n | 1 => upto 1 (AccConst i0) n
  | _ => upto 0 (AccConst i1) n
  end.
Definition ed : unit -> nat -> pset -> unit * (nat * (pset * list (nat * macc))) :=
  fun _ id s => (tt, (id + 10, (s, accs (id + 10)))).
Definition returning : list pop :=
  [PVar 0 both; PVar 1 both; PDer 0 1 [i0];
   PEqn 4 [i0] (accs 4); PEqn 2 [i0] (accs 2); PEqn 3 [i0] (accs 3);
   PEqn 0 both (accs 0); PEqn 1 [i0] (accs 1); PEqn 5 [i0] (accs 5)].
Definition returning_run : res (pstate unit * list nat) :=
  st <- p_build unit tt returning ;;
  p_run solve_access unit vd ed some_fuels sched_seq never plenty plenty psched_seq st.

(** * A run with an unneeded derivative *)

Definition vd2 : unit -> nat -> pset -> unit * (nat * pset) := fun _ id s => (tt, (id + 10, s)).
Definition ed2 : unit -> nat -> pset -> unit * (nat * (pset * list (nat * macc))) :=
  fun _ id s => (tt, (id + 10, (s, [(0, same); (10, same)]))).
Definition doubled : list pop :=
  [PVar 0 both; PEqn 1 [i0] [(0, same)]; PEqn 0 both [(0, same)]].
Definition doubled_run : res (pstate unit * list nat) :=
  st <- p_build unit tt doubled ;;
  p_run solve_access unit vd2 ed2 some_fuels sched_seq never plenty plenty psched_seq st.

(** * A run that does not end *)

(** An equation without variables, whose derivatives have none either. *)
Definition ed3 : unit -> nat -> pset -> unit * (nat * (pset * list (nat * macc))) :=
  fun _ id s => (tt, (S id, (s, []))).
Definition lonely : list pop := [PEqn 0 [i0] []].

Definition twin (k : nat) : nat * nat := (k, k).

Record stuck (k : nat) (st : pstate unit) : Prop := Stuck {
  st_edges : g_edges (p_g st) = [];
  st_next : p_next st = S k;
  st_eid : p_eid st = map twin (seq 0 (S k));
  st_unm : mt_unmatched (g_vx (p_g st) (ne k)) = [i0];
  st_eder : forall d, k <= d -> pm_get (p_eder st) d = None }.

Lemma twin_find : forall (f : nat * nat -> nat), (forall k, f (twin k) = k) -> forall n a k,
  a <= k < a + n -> find (fun x => Nat.eqb (f x) k) (map twin (seq a n)) = Some (twin k).
Proof.
  intros f Hf. induction n as [|n IH]; intros a k H; [lia|]. cbn [seq map find]. rewrite Hf.
  destruct (Nat.eqb a k) eqn:E; [apply Nat.eqb_eq in E; now subst|].
  apply Nat.eqb_neq in E. apply IH. lia.
Qed.
Lemma twin_find_none : forall (f : nat * nat -> nat), (forall k, f (twin k) = k) -> forall n a k,
  a + n <= k -> find (fun x => Nat.eqb (f x) k) (map twin (seq a n)) = None.
Proof.
  intros f Hf. induction n as [|n IH]; intros a k H; cbn [seq map find]; auto. rewrite Hf.
  destruct (Nat.eqb a k) eqn:E; [apply Nat.eqb_eq in E; lia|]. apply IH. lia.
Qed.

Lemma pm_get_add : forall m d der s, (forall k, d <= k -> pm_get m k = None) ->
  pm_get (pm_add m d der s) d = Some (der, s) /\
  forall k, S d <= k -> pm_get (pm_add m d der s) k = None.
Proof.
  induction m as [|[a b] m IH]; intros d der s H; cbn.
  - unfold pm_get; cbn. rewrite Nat.eqb_refl. split; auto. intros k Hk.
    destruct (Nat.eqb d k) eqn:E; auto. apply Nat.eqb_eq in E. lia.
  - pose proof (H d (le_n d)) as H0. unfold pm_get in H0. cbn in H0.
    destruct (Nat.eqb a d) eqn:E; [discriminate|].
    assert (Hm : forall k, d <= k -> pm_get m k = None).
    { intros k Hk. specialize (H k Hk). unfold pm_get in *. cbn in H. destruct (Nat.eqb a k); [discriminate|auto]. }
    destruct (IH d der s Hm) as [A B]. unfold pm_get in *. cbn. rewrite E. split; auto.
    intros k Hk. specialize (H k). cbn in H. destruct (Nat.eqb a k); [|now apply B].
    specialize (H ltac:(lia)). discriminate.
Qed.

Lemma stuck_step : forall k st n r bfuel, stuck k st ->
  exists st', stuck (S k) st' /\ length (p_log st') = S (length (p_log st)) /\
    p_work solve_access unit vd ed3 (S n) (S bfuel) psched_seq r st [k] =
    p_work solve_access unit vd ed3 n (S bfuel) psched_seq (S r) st' [S k].
Proof.
  intros k st n r bfuel [Ed Nx Ei Un Er].
  cbn [p_work]. rewrite Un. cbn [ps_empty i0].
  assert (Out : forall m, g_out (p_g st) m = []) by (intro; unfold g_out; now rewrite Ed).
  assert (B : p_bfs solve_access (S bfuel) (pc_ord psched_seq r) 0 (p_g st) [SStart (ne k) [i0]] =
              Ok ([], [(ne k, [i0])])).
  { cbn [p_bfs pc_ord psched_seq sort_paths fold_right sort_insert].
    unfold expand, step_visits. cbn [flat_map s_node s_cand ne]. rewrite Out. cbn [flat_map app].
    destruct bfuel; reflexivity. }
  rewrite B. cbn [bind filter_paths].
  change (visits_of (pc_vis psched_seq r [(ne k, [i0])])) with [(ne k, [i0])].
  assert (Idk : id_of (p_eid st) k = Some k).
  { unfold id_of. rewrite Ei, (twin_find fst); auto. lia. }
  assert (Byk : by_id (p_eid st) (S k) = None).
  { unfold by_id. rewrite Ei, (twin_find_none snd); auto. }
  assert (Rec : pm_recorded (p_eder st) k = []) by (unfold pm_recorded; now rewrite Er).
  destruct (pm_get_add (p_eder st) k (S k) [i0] Er) as [G1 G2].
  assert (D : exists st', p_diffVisited unit vd ed3 st [(ne k, [i0])] = Ok st' /\ stuck (S k) st' /\
              length (p_log st') = S (length (p_log st)) /\
              pm_get (p_eder st') k = Some (S k, [i0])).
  { unfold p_diffVisited. cbn [fold_res fst snd ne bind]. unfold p_diffEquation. rewrite Idk, Rec.
    change (ps_diff [i0] []) with [i0]. cbn [ps_empty i0].
    cbn [ed3]. unfold p_call. cbn [p_eid]. rewrite Byk.
    unfold p_addEquation. cbn [p_eid p_next p_g p_vid p_acc p_vder p_eder p_user p_log].
    rewrite Byk, Nx. cbn [ps_empty negb assert_ok bind i0 known_accs flat_map map firsts fst].
    eexists. split; [reflexivity|]. split; [|split].
    - constructor; cbn [p_next p_g p_eid p_eder g_edges g_vx g_addNode].
      + now rewrite Ed.
      + reflexivity.
      + rewrite Ei. rewrite (seq_S (S k)). rewrite map_app. reflexivity.
      + rewrite nupd_same. reflexivity.
      + exact G2.
    - cbn [p_log]. rewrite app_length. cbn. lia.
    - exact G1. }
  destruct D as (st' & -> & St & Le & Ge). exists st'. split; auto. split; auto.
  cbn [bind]. rewrite Ge. reflexivity.
Qed.

Lemma stuck_forever : forall n k st r bfuel, stuck k st ->
  exists st' e, p_work solve_access unit vd ed3 n (S bfuel) psched_seq r st [k] = Ok (st', [e]) /\
    length (p_log st') = n + length (p_log st).
Proof.
  induction n as [|n IH]; intros k st r bfuel H.
  - exists st, k. auto.
  - destruct (stuck_step k st n r bfuel H) as (st1 & H1 & L1 & ->).
    destruct (IH (S k) st1 (S r) bfuel H1) as (st2 & e & E & L). exists st2, e. split; auto. lia.
Qed.

Lemma lonely_start : exists st st', p_build unit tt lonely = Ok st /\
  p_match solve_access unit some_fuels sched_seq never st = Ok (st', None) /\
  rev (map fst (p_eid st)) = [0] /\ p_log st' = [] /\ stuck 0 st'.
Proof.
  eexists. eexists. split; [reflexivity|]. split; [reflexivity|]. split; [reflexivity|]. split; [reflexivity|].
  constructor; reflexivity.
Qed.

(** * The runs *)

Lemma view : forall A B (r : res A) (f : A -> B) b,
  match r with Ok x => Some (f x) | _ => None end = Some b -> exists x, r = Ok x /\ f x = b.
Proof. intros A B [x| |] f b H; try discriminate. inversion H. eauto. Qed.

Definition log_of (r : res (pstate unit * list nat)) : list pevent :=
  match r with Ok x => p_log (fst x) | _ => [] end.
Definition doubled_log : list pevent := Eval vm_compute in log_of doubled_run.
Definition returning_log : list pevent := Eval vm_compute in log_of returning_run.


Lemma doubled_view : match (st <- p_build unit tt doubled ;;
    p_run solve_access unit vd2 ed2 some_fuels sched_seq never plenty plenty psched_seq st)
  with Ok x => Some (p_log (fst x), snd x) | _ => None end = Some (doubled_log, []).
Proof. vm_compute. reflexivity. Qed.
Lemma doubled_ok : exists st st' w, p_build unit tt doubled = Ok st /\
  p_run solve_access unit vd2 ed2 some_fuels sched_seq never plenty plenty psched_seq st = Ok (st', w) /\
  p_log st' = doubled_log /\ w = [].
Proof.
  pose proof doubled_view as V. apply view in V. destruct V as ([st' w] & R & E).
  apply bind_ok in R. destruct R as (st & B & R). exists st, st', w. split; [exact B|].
  split; [exact R|]. split; [exact (f_equal fst E)|exact (f_equal snd E)].
Qed.

Lemma returning_view : match (st <- p_build unit tt returning ;;
    p_run solve_access unit vd ed some_fuels sched_seq never plenty plenty psched_seq st)
  with Ok x => Some (p_log (fst x), filter (fun x => Nat.eqb (snd x) 10) (p_eid (fst x)),
                     mt_all (g_vx (p_g (fst x)) (ne 10)))
     | _ => None end = Some (returning_log, [(10, 10)], [i1]).
Proof. vm_compute. reflexivity. Qed.
Lemma returning_ok : exists st st' w, p_build unit tt returning = Ok st /\
  p_run solve_access unit vd ed some_fuels sched_seq never plenty plenty psched_seq st = Ok (st', w) /\
  p_log st' = returning_log /\
  filter (fun x => Nat.eqb (snd x) 10) (p_eid st') = [(10, 10)] /\
  mt_all (g_vx (p_g st') (ne 10)) = [i1].
Proof.
  pose proof returning_view as V. apply view in V. destruct V as ([st' w] & R & E).
  apply bind_ok in R. destruct R as (st & B & R). exists st, st', w. split; [exact B|].
  split; [exact R|]. split; [exact (f_equal (fun x => fst (fst x)) E)|].
  split; [exact (f_equal (fun x => snd (fst x)) E)|exact (f_equal snd E)].
Qed.

Definition square : list pop :=
  [PVar 0 both; PVar 1 both; PEqn 0 both [(0, same); (1, same)]; PEqn 1 both [(0, same)]].
Lemma square_view : match (st <- p_build unit tt square ;;
    p_match solve_access unit some_fuels sched_seq never st)
  with Ok x => Some (match snd x with Some _ => true | None => false end) | _ => None end = Some true.
Proof. vm_compute. reflexivity. Qed.
Lemma square_ok : exists st st' r, p_build unit tt square = Ok st /\
  p_match solve_access unit some_fuels sched_seq never st = Ok (st', Some r).
Proof.
  pose proof square_view as V. apply view in V. destruct V as ([st' o] & R & E).
  apply bind_ok in R. destruct R as (st & B & R). destruct o as [r|]; [|discriminate].
  exists st, st', r. split; [exact B|exact R].
Qed.

(** * A chain of integrators *)

(** The unknowns x, y, w and z are the variables 0 to 3; x is given (equation 0), the
    equations 1 to 3 are x' = y, y' = w and w' = z. The derivative of the variable or
    equation [n] is [n + 10]. *)
Definition vdc : unit -> nat -> pset -> unit * (nat * pset) := fun _ id s => (tt, (id + 10, s)).
Definition derivs (v from n : nat) : list (nat * macc) :=
  map (fun j => (v + 10 * j, same)) (seq from (S n)).
Definition chain_acc (k : nat) : list (nat * macc) :=
  let n := k / 10 in
  match k mod 10 with
  | 0 => derivs 0 0 n
  | S v => derivs v 1 n ++ derivs (S v) 0 n
  end.
Definition edc : unit -> nat -> pset -> unit * (nat * (pset * list (nat * macc))) :=
  fun _ id s => (tt, (id + 10, (s, chain_acc (id + 10)))).
Definition chain : list pop :=
  [PVar 0 [i0]; PVar 10 [i0]; PDer 0 10 [i0]; PVar 1 [i0]; PVar 11 [i0]; PDer 1 11 [i0];
   PVar 2 [i0]; PVar 12 [i0]; PDer 2 12 [i0]; PVar 3 [i0];
   PEqn 0 [i0] (chain_acc 0); PEqn 1 [i0] (chain_acc 1);
   PEqn 2 [i0] (chain_acc 2); PEqn 3 [i0] (chain_acc 3)].

Definition chain_parts (st : pstate unit) :=
  (p_log st, p_eid st,
   map (fun e => (e, ents (ed_inc (g_ed (p_g st) e)))) (g_edges (p_g st)),
   map (fun x => mt_all (g_vx (p_g st) (ne (fst x)))) (p_eid st)).
Definition chain_end := Eval vm_compute in
  match (st <- p_build unit tt chain ;;
    p_run solve_access unit vdc edc some_fuels sched_seq never plenty plenty psched_seq st)
  with Ok x => Some (chain_parts (fst x)) | _ => None end.
Lemma chain_view : match (st <- p_build unit tt chain ;;
    p_run solve_access unit vdc edc some_fuels sched_seq never plenty plenty psched_seq st)
  with Ok x => Some (chain_parts (fst x), snd x) | _ => None end =
  match chain_end with Some c => Some (c, []) | None => None end.
Proof. vm_compute. reflexivity. Qed.
Lemma chain_match_view : match (st <- p_build unit tt chain ;;
    p_match solve_access unit some_fuels sched_seq never st)
  with Ok x => Some (match snd x with Some _ => true | None => false end) | _ => None end = Some false.
Proof. vm_compute. reflexivity. Qed.

Definition chain_log : list pevent :=
  Eval vm_compute in match chain_end with Some (l, _, _, _) => l | None => [] end.
Lemma chain_ok : exists st st1 st' w, p_build unit tt chain = Ok st /\
  p_match solve_access unit some_fuels sched_seq never st = Ok (st1, None) /\
  p_run solve_access unit vdc edc some_fuels sched_seq never plenty plenty psched_seq st = Ok (st', w) /\
  w = [] /\ p_log st' = chain_log /\
  p_eid st' = [(7, 0); (8, 1); (9, 2); (10, 3); (11, 10); (13, 20); (14, 11)] /\
  map (fun e => (e, ents (ed_inc (g_ed (p_g st') e)))) (g_edges (p_g st')) =
    [((9, None), (3, None), [(i0, i0)]); ((10, None), (5, None), [(i0, i0)]);
     ((10, None), (6, None), [(i0, i0)]); ((13, None), (12, None), [(i0, i0)]);
     ((14, None), (12, None), [(i0, i0)]); ((14, None), (3, None), [(i0, i0)])] /\
  map (fun x => mt_all (g_vx (p_g st') (ne (fst x)))) (p_eid st') =
    [[i0]; [i0]; [i0]; [i0]; [i0]; [i0]; [i0]].
Proof.
  pose proof chain_view as V. unfold chain_end in V. apply view in V. destruct V as ([st' w] & R & E).
  apply bind_ok in R. destruct R as (st & B & R).
  pose proof chain_match_view as M. apply view in M. destruct M as ([st1 o] & M & Eo).
  apply bind_ok in M. destruct M as (st0 & B0 & M). rewrite B in B0. inversion B0; subst st0.
  destruct o as [o|]; [discriminate|].
  exists st, st1, st', w. split; [exact B|]. split; [exact M|]. split; [exact R|].
  cbn [fst snd] in E. unfold chain_parts in E.
  split; [exact (f_equal snd E)|]. apply (f_equal fst) in E. cbn [fst] in E.
  split; [exact (f_equal (fun x => fst (fst (fst x))) E)|].
  split; [exact (f_equal (fun x => snd (fst (fst x))) E)|].
  split; [exact (f_equal (fun x => snd (fst x)) E)|exact (f_equal snd E)].
Qed.
