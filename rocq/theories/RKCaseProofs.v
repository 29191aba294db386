(** Proofs about the tableaux of the code, and about the small models. *)
From Coq Require Import String Bool ZArith QArith Qreals Reals List Lia Lra.
From Verif Require Import Result RKModel RKSpec RKStatements RKExamples RKProofs RKOrderProofs
  RKRunProofs.
Import ListNotations.
Local Open Scope nat_scope.
Local Open Scope list_scope.

(** ** The tableaux *)

Definition below (n : nat) (f : nat -> bool) : bool := forallb f (seq 0 n).

Lemma below_true : forall n f, below n f = true -> forall i, i < n -> f i = true.
Proof.
  intros n f H i L. unfold below in H. rewrite forallb_forall in H. apply H.
  apply in_seq. lia.
Qed.

Definition check_tableau (tb : tableau) (p : published) : bool :=
  Nat.eqb (t_rows tb) (t_columns tb) && Nat.ltb 0 (t_rows tb) &&
  Nat.eqb (length (t_coefficients tb)) (t_rows tb * t_columns tb) &&
  Nat.eqb (length (t_weights tb)) (t_columns tb) &&
  Nat.eqb (length (t_adaptive tb)) (t_columns tb) &&
  Nat.eqb (length (t_nodes tb)) (t_rows tb) &&
  Nat.eqb (t_rows tb) (length (p_weights p)) &&
  below (t_rows tb) (fun i => below (t_rows tb) (fun j =>
    Qeq_bool (mat (method_of_tableau tb) i j) (mat (method_of p) i j))) &&
  below (t_rows tb) (fun j => Qeq_bool (wts (method_of_tableau tb) j) (wts (method_of p) j)) &&
  below (t_rows tb) (fun j => Qeq_bool (nds (method_of_tableau tb) j) (nds (method_of p) j)) &&
  below (t_rows tb) (fun j => Qeq_bool (embedded_weights tb j) (nth j (p_embedded p) 0%Q)) &&
  Bool.eqb (is_adaptive tb) (negb (Nat.eqb (length (p_embedded p)) 0)).

Lemma check_tableau_sound : forall tb p, check_tableau tb p = true ->
  wf_tableau tb /\ same_method (method_of_tableau tb) (method_of p) /\
  (forall j, j < t_rows tb -> (embedded_weights tb j == nth j (p_embedded p) 0)%Q) /\
  (is_adaptive tb = true <-> p_embedded p <> []).
Proof.
  intros tb p H. unfold check_tableau in H.
  repeat (apply andb_prop in H; destruct H as [H ?]).
  repeat match goal with
  | K : Nat.eqb _ _ = true |- _ => apply Nat.eqb_eq in K
  | K : Nat.ltb _ _ = true |- _ => apply Nat.ltb_lt in K
  | K : Bool.eqb _ _ = true |- _ => apply Bool.eqb_prop in K
  end.
  split; [repeat split; assumption|]. split; [|split].
  - split; [assumption|]. split; [|split].
    + intros i j I J. cbn [stages method_of_tableau] in I, J.
      pose proof (below_true _ _ H4 i I) as K. cbn beta in K.
      apply Qeq_bool_eq. exact (below_true _ _ K j J).
    + intros j J. apply Qeq_bool_eq. exact (below_true _ _ H3 j J).
    + intros j J. apply Qeq_bool_eq. exact (below_true _ _ H2 j J).
  - intros j J. apply Qeq_bool_eq. exact (below_true _ _ H1 j J).
  - match goal with K : is_adaptive tb = _ |- _ => rewrite K end.
    destruct (p_embedded p); cbn; split; intros; congruence.
Qed.

Definition check_rows (M : rk_method) : bool :=
  below (stages M) (fun i => Qeq_bool (nds M i) (Qsum (stages M) (mat M i))).

Lemma check_rows_sound : forall M, check_rows M = true -> nodes_are_row_sums M.
Proof.
  intros M H i I. apply Qeq_bool_eq. exact (below_true _ _ H i I).
Qed.

Definition check_explicit (M : rk_method) : bool :=
  below (stages M) (fun i => below (stages M) (fun j =>
    Nat.ltb j i || Qeq_bool (mat M i j) 0)).

Lemma check_explicit_sound : forall M, check_explicit M = true -> explicit_method M.
Proof.
  intros M H i j (L & J).
  pose proof (below_true _ _ H i ltac:(lia)) as K. cbn beta in K.
  pose proof (below_true _ _ K j J) as E. cbn beta in E.
  destruct (Nat.ltb_spec j i); [lia|]. now apply Qeq_bool_eq.
Qed.

(** The order is not higher: a tree whose condition fails. *)
Lemma not_order : forall M b p t, tree_size t <= p ->
  condition_holds M b t = false -> ~ order_at_least M b p.
Proof.
  intros M b p t L H O. apply O, Qeq_bool_iff in L. unfold condition_holds in H. congruence.
Qed.

(** ** Sums of the weights *)

Lemma order_one : forall M b, order_at_least M b 1 ->
  Rsum (stages M) (fun j => Q2R (b j)) = 1%R.
Proof.
  intros M b H. pose proof (bush_condition M b 1 0 H ltac:(lia)) as K.
  rewrite (Rsum_ext _ _ (fun j => Q2R (b j) * row_sum M j ^ 0)%R); [|intros; cbn; ring].
  rewrite K. cbn. lra.
Qed.

Lemma order_two : forall M b, order_at_least M b 2 ->
  Rsum (stages M) (fun j => Q2R (b j) * Rsum (stages M) (fun l => Q2R (mat M j l)))%R = (1/2)%R.
Proof.
  intros M b H. pose proof (bush_condition M b 2 1 H ltac:(lia)) as K.
  rewrite (Rsum_ext _ _ (fun j => Q2R (b j) * row_sum M j ^ 1)%R).
  - rewrite K. cbn. lra.
  - intros j J. unfold row_sum. cbn [pow]. ring.
Qed.

(** ** The small models *)

Lemma one_state_wf : wf_model one_state.
Proof.
  repeat split; cbn; try (repeat constructor; cbn; intuition discriminate);
    destruct H as [E | []]; injection E as <- <-; auto.
Qed.

Lemma array_state_wf : wf_model array_state.
Proof.
  repeat split; cbn; try (repeat constructor; cbn; intuition discriminate);
    destruct H as [E | []]; injection E as <- <-; auto.
Qed.

Lemma two_states_wf : wf_model two_states.
Proof.
  repeat split; cbn; try (repeat constructor; cbn; intuition discriminate);
    destruct H as [E | [E | []]]; injection E as <- <-; auto.
Qed.

Lemma with_algebraic_wf : wf_model with_algebraic.
Proof.
  repeat split; cbn; try (repeat constructor; cbn; intuition discriminate);
    destruct H as [E | []]; injection E as <- <-; auto.
Qed.

Lemma one_state_first : first_order one_state.
Proof. intros v [<- | []] [H | []]; discriminate. Qed.
Lemma array_state_first : first_order array_state.
Proof. intros v [<- | []] [H | []]; discriminate. Qed.
Lemma two_states_first : first_order two_states.
Proof. intros v [<- | [<- | []]] [H | [H | []]]; discriminate. Qed.
Lemma with_algebraic_first : first_order with_algebraic.
Proof. intros v [<- | []] [H | []]; discriminate. Qed.

(** The step the specification asks for, y'_0 = y_1 and y'_1 = 1. *)
Lemma chain_step : forall (M : rk_method) (dom : nat * point -> Prop) f t h y y' s0 s1,
  dom s0 -> dom s1 ->
  (forall t y, f t y s0 = y s1) -> (forall t y, f t y s1 = 1%R) ->
  is_step M dom f t h y y' ->
  y' s0 = (y s0 + h * (Rsum (stages M) (fun i => Q2R (wts M i)) * y s1)
    + h * h * Rsum (stages M) (fun i => Q2R (wts M i)
        * Rsum (stages M) (fun j => Q2R (mat M i j))))%R.
Proof.
  intros M dom f t h y y' s0 s1 D0 D1 F0 F1 (k & Hk & Hu).
  rewrite (Hu s0 D0).
  assert (K1 : forall i, i < stages M -> k i s1 = 1%R).
  { intros i I. rewrite (Hk i s1 I D1). apply F1. }
  assert (K0 : forall i, i < stages M -> k i s0 =
    (y s1 + h * Rsum (stages M) (fun j => Q2R (mat M i j)))%R).
  { intros i I. rewrite (Hk i s0 I D0), F0. f_equal. f_equal. apply Rsum_ext.
    intros j J. rewrite (K1 j J). ring. }
  rewrite (Rsum_ext _ _ (fun i => (Q2R (wts M i) * y s1
    + (Q2R (wts M i) * Rsum (stages M) (fun j => Q2R (mat M i j))) * h))%R).
  - rewrite Rsum_plus, !Rsum_scale. ring.
  - intros i I. rewrite (K0 i I). ring.
Qed.

Lemma array_gives : forall p, In p [[0%Z]; [1%Z]] -> exists e,
  gives_derivative array_state array_state_sccs 0 e /\ In p (e_indices e) /\
  e_access e p = p /\
  forall t vals, e_rhs e t vals p = if point_eqb p [0%Z] then vals 0 [1%Z] else 1%R.
Proof.
  intros p [<- | [<- | []]]; eexists; (split; [eexists|]).
  - split; [now left|]. split; [left; reflexivity|now left].
  - split; [now left|split; reflexivity].
  - split; [right; now left|]. split; [left; reflexivity|now left].
  - split; [now left|split; reflexivity].
Qed.

Lemma array_step : forall tb eqs t h clock hid mem, wf_tableau tb ->
  try_step array_state tb array_state_sccs = Ok (Some eqs) ->
  solves t h clock hid eqs mem ->
  mem (Fut 0, [0%Z]) = (mem (Cur 0, [0%Z])
    + h * (Rsum (t_rows tb) (fun j => Q2R (wts (method_of_tableau tb) j))
           * mem (Cur 0, [1%Z])))%R.
Proof.
  intros tb eqs t h clock hid mem Wt H Sv.
  destruct (array_gives [0%Z]) as (e & G & P & A & Rh); [now left|].
  pose proof (future_value _ _ _ _ array_state_wf Wt H t h clock hid mem 0 e _ Sv G P) as F.
  rewrite A in F. refine (eq_trans F _). f_equal. f_equal. rewrite <- Rsum_scale.
  apply Rsum_ext. intros j J. f_equal.
  pose proof (slope_value _ _ _ _ array_state_wf Wt H t h clock hid mem 0 e _ j Sv G P J) as S1.
  rewrite A, !Rh in S1. refine (eq_trans (S1 _) _).
  - intros t' f g E. rewrite !Rh. now rewrite !E.
  - reflexivity.
Qed.

Lemma two_gives : exists ex ey,
  gives_derivative two_states two_states_sccs 0 ex /\
  gives_derivative two_states two_states_sccs 1 ey /\
  e_indices ex = [[]] /\ e_indices ey = [[]] /\ e_access ex [] = [] /\ e_access ey [] = [] /\
  (forall t vals, e_rhs ex t vals [] = vals 1 []) /\ (forall t vals, e_rhs ey t vals [] = 1%R).
Proof.
  do 2 eexists. split; [|split].
  - eexists. split; [now left|]. split; [left; reflexivity|now left].
  - eexists. split; [right; now left|]. split; [left; reflexivity|right; now left].
  - repeat split; reflexivity.
Qed.

Lemma two_step : forall tb eqs t h clock hid mem r, wf_tableau tb ->
  try_step two_states tb two_states_sccs = Ok (Some eqs) ->
  solves t h clock hid eqs mem ->
  (forall i, hid (Slope 0 i, []) (Fut 1, []) = r) ->
  mem (Fut 0, []) = (mem (Cur 0, [])
    + h * (Rsum (t_rows tb) (fun j => Q2R (wts (method_of_tableau tb) j)) * r))%R /\
  mem (Fut 1, []) = (mem (Cur 1, [])
    + h * Rsum (t_rows tb) (fun j => Q2R (wts (method_of_tableau tb) j)))%R.
Proof.
  intros tb eqs t h clock hid mem r Wt H Sv Hr.
  destruct two_gives as (ex & ey & Gx & Gy & Ix & Iy & Ax & Ay & Rx & Ry).
  assert (Px : In [] (e_indices ex)) by (rewrite Ix; now left).
  assert (Py : In [] (e_indices ey)) by (rewrite Iy; now left).
  pose proof (future_value _ _ _ _ two_states_wf Wt H t h clock hid mem 0 ex _ Sv Gx Px) as Fx.
  pose proof (future_value _ _ _ _ two_states_wf Wt H t h clock hid mem 1 ey _ Sv Gy Py) as Fy.
  rewrite Ax in Fx. rewrite Ay in Fy. split.
  - refine (eq_trans Fx _). f_equal. f_equal. rewrite <- Rsum_scale. apply Rsum_ext. intros j J. f_equal.
    pose proof (slope_value _ _ _ _ two_states_wf Wt H t h clock hid mem 0 ex _ j Sv Gx Px J) as S1.
    rewrite Ax, Rx in S1. refine (eq_trans (S1 _) _); [intros; rewrite !Rx; auto|].
    cbn. apply Hr.
  - refine (eq_trans Fy _). f_equal. f_equal. apply Rsum_ext. intros j J.
    pose proof (slope_value _ _ _ _ two_states_wf Wt H t h clock hid mem 1 ey _ j Sv Gy Py J) as S1.
    rewrite Ay, Ry in S1. transitivity (Q2R (wts (method_of_tableau tb) j) * 1)%R; [|ring].
    f_equal. apply S1. intros. now rewrite !Ry.
Qed.

Lemma alg_gives : exists e,
  gives_derivative with_algebraic with_algebraic_sccs 0 e /\
  e_indices e = [[]] /\ e_access e [] = [] /\ e_match e = 1 /\
  (forall t vals, e_rhs e t vals [] = vals 2 []).
Proof.
  eexists. split.
  - eexists. split; [right; now left|]. split; [left; reflexivity|now left].
  - repeat split; reflexivity.
Qed.

Lemma alg_step : forall tb eqs t h clock hid mem, wf_tableau tb ->
  try_step with_algebraic tb with_algebraic_sccs = Ok (Some eqs) ->
  solves t h clock hid eqs mem ->
  (forall v q, hid v (Cur 2, q) = mem (Cur 2, q)) ->
  mem (Fut 0, []) = (mem (Cur 0, [])
    + h * (Rsum (t_rows tb) (fun j => Q2R (wts (method_of_tableau tb) j)) * mem (Cur 2, [])))%R /\
  mem (Fut 1, []) = mem (Cur 2, []).
Proof.
  intros tb eqs t h clock hid mem Wt H Sv Hr.
  destruct alg_gives as (e & G & Ie & A & Em & Rh).
  assert (P : In [] (e_indices e)) by (rewrite Ie; now left). split.
  - pose proof (future_value _ _ _ _ with_algebraic_wf Wt H t h clock hid mem 0 e _ Sv G P) as F.
    rewrite A in F. refine (eq_trans F _).
    f_equal. f_equal. rewrite <- Rsum_scale. apply Rsum_ext. intros j J. f_equal.
    pose proof (slope_value _ _ _ _ with_algebraic_wf Wt H t h clock hid mem 0 e _ j Sv G P J) as S1.
    rewrite A, Rh in S1. refine (eq_trans (S1 _) _); [intros; rewrite !Rh; auto|].
    cbn. apply Hr.
  - pose proof (clone_value _ _ _ _ with_algebraic_wf H t h clock hid mem 0 e _ Sv G P) as F.
    rewrite Em, A, Rh in F. exact F.
Qed.

(** One step of the method of Kutta on y' = y. *)
Lemma kutta_exponential : forall S (dom : S -> Prop) t h y y' v, dom v ->
  is_step (method_of kutta) dom (fun _ y v => y v) t h y y' ->
  y' v = (y v * (1 + h + h * h / 2 + h * h * h / 6 + h * h * h * h / 24))%R.
Proof.
  intros S dom t h y y' v D (k & Hk & Hu). rewrite (Hu v D).
  cbn [stages method_of kutta p_weights length] in *.
  pose proof (Hk 0 v ltac:(cbn; lia) D) as K0. pose proof (Hk 1 v ltac:(cbn; lia) D) as K1.
  pose proof (Hk 2 v ltac:(cbn; lia) D) as K2. pose proof (Hk 3 v ltac:(cbn; lia) D) as K3.
  cbn -[Q2R] in K0, K1, K2, K3 |- *.
  unfold Q2R in *. cbn in K0, K1, K2, K3 |- *.
  assert (E0 : k 0 v = y v) by (rewrite K0; lra).
  assert (E1 : k 1 v = (y v + h * (y v / 2))%R) by (rewrite K1, E0; lra).
  assert (E2 : k 2 v = (y v + h * (k 1%nat v / 2))%R) by (rewrite K2; lra).
  assert (E3 : k 3 v = (y v + h * k 2%nat v)%R) by (rewrite K3; lra).
  rewrite E3, E2, E1, E0. field.
Qed.

(** ** The run of a schedule *)

Lemma run_correct : forall m tb sccs eqs l t h clock mem f,
  wf_model m -> first_order m -> wf_tableau tb -> one_equation_each m sccs ->
  (forall x e, gives_derivative m sccs x e -> framed e /\ decoupled m x e) ->
  try_step m tb sccs = Ok (Some eqs) -> (forall q, In q l <-> In q eqs) -> ordered l ->
  is_ode m sccs (fun w q => mem (Cur w, q)) f ->
  let mem' := exec t h clock l mem in
  is_step (method_of_tableau tb) (integrated m sccs) f t h (current mem) (next mem') /\
  (forall w q, mem' (Cur w, q) = mem (Cur w, q)).
Proof.
  intros m tb sccs eqs l t h clock mem f W Fo Wt U D H P Od O.
  destruct (run_solves m tb sccs eqs W H Fo U (fun x e G => proj1 (D x e G)) t h clock l mem P Od)
    as (hid & Sv & Hh & Hc).
  split; [|exact Hc].
  assert (O' : is_ode m sccs (fun w q => exec t h clock l mem (Cur w, q)) f).
  { intros x e p t' y G Ip vals V1 V2 V3. apply (O x e p t' y G Ip vals V1); [|exact V3].
    intros w q Pw. rewrite (V2 w q Pw). apply Hc. }
  destruct (step_correct m tb sccs eqs W Wt H Fo (fun x e G => proj2 (D x e G)) t h clock hid
    (exec t h clock l mem) f Sv (fun v w q _ => Hh v w q) O') as (S1 & S2).
  exists (slopes (exec t h clock l mem)). split.
  - intros i [x q] I (e & p & G & Ip & Ea). cbn [fst snd] in *. subst q.
    rewrite (is_ode_values m sccs _ f x e p _ _ W Fo O G Ip).
    refine (eq_trans (S1 i (x, e_access e p) I ltac:(exists e, p; auto)) _).
    rewrite (is_ode_values m sccs _ f x e p _ _ W Fo O' G Ip).
    destruct (D x e G) as (_ & Dx). apply Dx; [exact Ip| |].
    + rewrite !(ode_values_state m _ _ _ _ x _ W (gives_state _ _ _ _ G)).
      cbn [fst snd]. now rewrite Hc.
    + intros w q Pw. rewrite !(ode_values_plain m _ _ _ _ w q W Pw). apply Hc.
  - intros v Dv. refine (eq_trans (S2 v Dv) _). f_equal. apply Hc.
Qed.

(** ** The catalogue *)

Ltac by_catalogue C N tac :=
  repeat (destruct C as [C | C]; [injection C as <- <- <-; try (now destruct N); tac|]);
  destruct C.

Ltac by_trees :=
  split; [apply check_order_sound; vm_compute; reflexivity|
    first [eapply (not_order _ _ (S _) (bush _)); [rewrite bush_size; apply le_n|vm_compute; reflexivity]
         | eapply (not_order _ _ (S _) (tall _)); [rewrite tall_size; apply le_n|vm_compute; reflexivity]]].

Lemma catalogue_agrees : forall name pub orders,
  In (name, (pub, orders)) catalogue -> name <> "cash-karp"%string ->
  exists tb, tableau_of name = Ok tb /\ wf_tableau tb /\
    same_method (method_of_tableau tb) (method_of pub) /\
    (forall j, j < t_rows tb -> (embedded_weights tb j == nth j (p_embedded pub) 0)%Q) /\
    (is_adaptive tb = true <-> p_embedded pub <> []).
Proof.
  intros name pub orders C N.
  by_catalogue C N ltac:(eexists; split; [vm_compute; reflexivity|];
    apply check_tableau_sound; vm_compute; reflexivity).
Qed.

Lemma catalogue_orders : forall name pub p q,
  In (name, (pub, (p, q))) catalogue -> name <> "cash-karp"%string ->
  exists tb, tableau_of name = Ok tb /\
    let M := method_of_tableau tb in
    nodes_are_row_sums M /\
    (order_at_least M (wts M) p /\ ~ order_at_least M (wts M) (S p)) /\
    (0 < q -> order_at_least M (embedded_weights tb) q /\
              ~ order_at_least M (embedded_weights tb) (S q)).
Proof.
  intros name pub p q C N.
  repeat (destruct C as [C | C]; [injection C as <- <- <- <-; try (now destruct N);
    (eexists; split; [vm_compute; reflexivity|]; cbv zeta;
     split; [apply check_rows_sound; vm_compute; reflexivity|];
     split; [by_trees|];
     let L := fresh in intros L;
     first [lia |
       by_trees])|]);
  destruct C.
Qed.

Lemma published_orders : forall name pub p q,
  In (name, (pub, (p, q))) catalogue ->
  let M := method_of pub in
  nodes_are_row_sums M /\
  (order_at_least M (wts M) p /\ ~ order_at_least M (wts M) (S p)) /\
  (0 < q -> order_at_least M (fun j => nth j (p_embedded pub) 0%Q) q /\
            ~ order_at_least M (fun j => nth j (p_embedded pub) 0%Q) (S q)).
Proof.
  intros name pub p q C.
  repeat (destruct C as [C | C]; [injection C as <- <- <- <-; 
    (cbv zeta;
     split; [apply check_rows_sound; vm_compute; reflexivity|];
     split; [by_trees|];
     let L := fresh in intros L;
     first [lia |
       by_trees])|]);
  destruct C.
Qed.

Lemma published_explicit : forall name pub orders,
  In (name, (pub, orders)) catalogue -> name <> "euler-backward"%string ->
  explicit_method (method_of pub).
Proof.
  intros name pub orders C N.
  by_catalogue C N ltac:(apply check_explicit_sound; vm_compute; reflexivity).
Qed.

Lemma published_stages : forall name pub p q,
  In (name, (pub, (p, q))) catalogue -> p <= stages (method_of pub).
Proof.
  intros name pub p q C.
  repeat (destruct C as [C | C]; [injection C as <- <- <- <-; cbn; lia|]). destruct C.
Qed.

(** ** The derivatives after a step *)

Lemma accepted_derivative : forall m tb sccs eqs t h clock hid mem x e p, wf_model m ->
  try_step m tb sccs = Ok (Some eqs) -> solves t h clock hid eqs mem ->
  gives_derivative m sccs x e -> In p (e_indices e) -> framed e ->
  scalar_of m (e_match e) (e_access e p) ->
  (forall w q, In (w, q) (e_reads e p) -> scalar_of m w q) ->
  let mem' := exec t h clock (accept_equations m) mem in
  mem' (Cur (e_match e), e_access e p) = e_rhs e clock (fun w q => mem' (Cur w, q)) p.
Proof.
  intros m tb sccs eqs t h clock hid mem x e p W H Sv G Ip Fr (ps & Iv & Ips) Rd mem'.
  destruct (accept_ok m t h clock mem) as (A & B). fold mem' in A, B.
  assert (U : has_future m (e_match e) = true).
  { apply has_future_iff; [exact W|]. right. destruct G as (s & _ & _ & I).
    change (e_match e) with (snd (x, e_match e)). now apply in_map. }
  rewrite (A _ ps _ Iv U Ips), (clone_value m tb sccs eqs W H t h clock hid mem x e p Sv G Ip).
  apply Fr. intros w q I. destruct (Rd w q I) as (qs & Iw & Iq).
  destruct (has_future m w) eqn:Uw.
  - symmetry. exact (A w qs q Iw Uw Iq).
  - symmetry. apply B. intros x' ps' p' _ Ux' _ E. injection E as -> _. congruence.
Qed.

(** ** A check of the order of the equations *)

Definition rvar_eqb (v w : rvar) : bool := if rvar_eq_dec v w then true else false.

Fixpoint reads_b (e : rexp) (v : rvar) : bool :=
  match e with
  | EConst _ | ETime | EStep => false
  | EGet w => rvar_eqb v w
  | EAdd a b | EMul a b => reads_b a v || reads_b b v
  | ECall m x e time own p =>
      (if rname_eq_dec (fst v) (Cur x) then true else false) || reads_b time v ||
      match own with Some (_, a) => reads_b a v | None => false end
  | EClone m e p =>
      existsb (fun w => rvar_eqb v
        (if has_future m (fst w) then Fut (fst w) else Cur (fst w), snd w)) (e_reads e p)
  end.

Lemma rvar_eqb_refl : forall v, rvar_eqb v v = true.
Proof. intros v. unfold rvar_eqb. now destruct (rvar_eq_dec v v). Qed.

Lemma reads_b_true : forall e v, reads e v -> reads_b e v = true.
Proof.
  fix IH 1. intros e v H. destruct e; cbn in *; try contradiction.
  - subst. apply rvar_eqb_refl.
  - apply orb_true_iff. destruct H as [H | H]; apply IH in H; auto.
  - apply orb_true_iff. destruct H as [H | H]; apply IH in H; auto.
  - rewrite !orb_true_iff. destruct H as [H | [H | H]].
    + left. left. destruct (rname_eq_dec (fst v) (Cur x)); [reflexivity|contradiction].
    + left. right. now apply IH.
    + right. destruct own as [[ix a]|]; [|contradiction]. now apply IH.
  - destruct H as (w & I & ->). apply existsb_exists. exists w. split; [exact I|].
    apply rvar_eqb_refl.
Qed.

Fixpoint ordered_b (l : list requation) : bool :=
  match l with
  | [] => true
  | (v, e) :: l' => forallb (fun w => negb (reads_b e (fst w))) ((v, e) :: l') && ordered_b l'
  end.

Lemma ordered_b_sound : forall l, ordered_b l = true -> ordered l.
Proof.
  induction l as [|[v e] l IH]; intros H; [exact I|]. cbn [ordered_b ordered] in *.
  apply andb_prop in H. destruct H as (H & Hl). split; [|now apply IH].
  intros w e' I Rd. rewrite forallb_forall in H. apply H in I. cbn [fst] in I.
  now rewrite (reads_b_true e w Rd) in I.
Qed.

Lemma constant_step : forall S (M : rk_method) (dom : S -> Prop) t h y y' v, dom v ->
  is_step M dom (fun _ _ _ => 1%R) t h y y' ->
  y' v = (y v + h * Q2R (Qsum (stages M) (wts M)))%R.
Proof.
  intros S M dom t h y y' v D (k & Hk & Hu). rewrite (Hu v D), Q2R_Qsum.
  f_equal. f_equal. apply Rsum_ext. intros j J. rewrite (Hk j v J D). ring.
Qed.

(** ** Forward Euler *)

Lemma euler_update : forall ranged h m vals, wf_model m -> first_order m ->
  (forall x ps, In (x, ps) (m_vars m) -> NoDup ps) ->
  let vals' := update_states ranged h m vals in
  (forall x d p, In (x, d) (m_ders m) -> scalar_of m x p ->
     vals' x p = (vals x p + h * vals d p)%R) /\
  (forall v p, ~ of_states m (v, p) -> vals' v p = vals v p).
Proof.
  intros ranged h m vals W Fo Nd.
  assert (Fst : forall x, In x (map fst (state_pairs m)) <-> In x (map fst (m_ders m))).
  { intros x. rewrite !in_map_iff. split; intros ([y d] & E & I); exists (y, d);
      (split; [exact E|]); now apply (state_pairs_In m y d W). }
  destruct (update_fold ranged h m (state_pairs m) vals (state_pairs_NoDup m W)) as (A & B).
  - intros x d x' I I' ->. apply (state_pairs_In m x x' W) in I. apply Fst in I'.
    apply (Fo x' I'). change x' with (snd (x, x')). now apply in_map.
  - intros x I. apply Fst in I. apply in_map_iff in I. destruct I as ([y d] & E & I).
    cbn in E. subst y. apply W in I. destruct I as (I & _). apply in_map_iff in I.
    destruct I as ([y ps] & E & I). cbn in E. subst y.
    rewrite (indices_of_ok m x ps W I). exact (Nd x ps I).
  - split.
    + intros x d p I (ps & Iv & Ip). apply A; [now apply (state_pairs_In m x d W)|].
      now rewrite (indices_of_ok m x ps W Iv).
    + intros v p N. apply B. destruct (in_dec Nat.eq_dec v (map fst (m_ders m))) as [I | I].
      * right. intros K. apply N. split; [exact I|]. cbn [fst snd].
        apply in_map_iff in I. destruct I as ([y d] & E & I). cbn in E. subst y.
        apply W in I. destruct I as (I & _). apply in_map_iff in I.
        destruct I as ([y ps] & E & I). cbn in E. subst y. exists ps. split; [exact I|].
        now rewrite <- (indices_of_ok m v ps W I).
      * left. intros K. now apply I, Fst.
Qed.
