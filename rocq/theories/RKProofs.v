(** Proofs about the Runge-Kutta and forward Euler passes. *)
From Coq Require Import String Bool ZArith QArith Qreals Reals List Lia Lra Permutation.
From Verif Require Import Result RKModel RKSpec RKStatements.
Import ListNotations.
Local Open Scope nat_scope.
Local Open Scope list_scope.

(** ** Trees *)

Definition forest_size (l : list tree) : nat :=
  fold_right (fun u n => tree_size u + n) 0 l.

Fixpoint forests (fuel n : nat) : list (list tree) :=
  match fuel with
  | O => []
  | S f =>
      match n with
      | O => [[]]
      | S n' =>
          flat_map (fun k =>
            flat_map (fun c => map (cons (Node c)) (forests f (n' - k)))
              (forests f k)) (seq 0 (S n'))
      end
  end.

Lemma tree_size_node : forall l, tree_size (Node l) = S (forest_size l).
Proof. reflexivity. Qed.

Lemma forests_complete : forall fuel l,
  forest_size l < fuel -> In l (forests fuel (forest_size l)).
Proof.
  induction fuel as [|f IH]; intros l H; [lia|].
  destruct l as [|[c] r].
  - now left.
  - change (forest_size (Node c :: r)) with (S (forest_size c) + forest_size r) in *.
    set (n' := forest_size c + forest_size r).
    change (In (Node c :: r) (forests (S f) (S n'))).
    cbn [forests].
    apply in_flat_map. exists (forest_size c). split.
    + apply in_seq. unfold n'. lia.
    + apply in_flat_map. exists c. split.
      * apply IH. lia.
      * replace (n' - forest_size c) with (forest_size r) by (unfold n'; lia).
        apply in_map. apply IH. lia.
Qed.

Definition condition_holds (M : rk_method) (b : nat -> Q) (t : tree) : bool :=
  Qeq_bool (elementary_weight M b t * inject_Z (density t)) 1.

Definition check_order (M : rk_method) (b : nat -> Q) (p : nat) : bool :=
  forallb (fun n => forallb (fun l => condition_holds M b (Node l)) (forests p n))
    (seq 0 p).

Lemma check_order_sound : forall M b p,
  check_order M b p = true -> order_at_least M b p.
Proof.
  intros M b p H t L. destruct t as [l].
  rewrite tree_size_node in L.
  unfold check_order in H. rewrite forallb_forall in H.
  specialize (H (forest_size l)).
  rewrite in_seq in H. specialize (H ltac:(lia)).
  rewrite forallb_forall in H.
  specialize (H l (forests_complete p l ltac:(lia))).
  now apply Qeq_bool_eq in H.
Qed.

Lemma order_weaken : forall M b p q, q <= p ->
  order_at_least M b p -> order_at_least M b q.
Proof. intros M b p q L H t K. apply H. lia. Qed.

(** ** Sums *)

Lemma Rsum_ext : forall n f g, (forall i, i < n -> f i = g i) -> Rsum n f = Rsum n g.
Proof.
  induction n as [|n IH]; intros f g H; cbn; [reflexivity|].
  rewrite (IH f g) by (intros; apply H; lia). rewrite H by lia. reflexivity.
Qed.

Lemma Rsum_scale : forall n f c, Rsum n (fun i => f i * c)%R = (Rsum n f * c)%R.
Proof.
  induction n as [|n IH]; intros f c; cbn; [lra|]. rewrite IH. lra.
Qed.

Lemma Rsum_plus : forall n f g,
  Rsum n (fun i => f i + g i)%R = (Rsum n f + Rsum n g)%R.
Proof.
  induction n as [|n IH]; intros f g; cbn; [lra|]. rewrite IH. lra.
Qed.

Lemma Rsum_zero : forall n, Rsum n (fun _ => 0%R) = 0%R.
Proof. induction n as [|n IH]; cbn; [reflexivity|]. rewrite IH. lra. Qed.

Lemma Rsum_shift : forall n f, Rsum (S n) f = (f O + Rsum n (fun i => f (S i)))%R.
Proof.
  induction n as [|n IH]; intros f; [cbn; lra|].
  change (Rsum (S (S n)) f) with (Rsum (S n) f + f (S n))%R. rewrite IH. cbn. lra.
Qed.

Lemma Q2R_Qred : forall q, Q2R (Qred q) = Q2R q.
Proof. intros q. apply Qeq_eqR, Qred_correct. Qed.

Lemma Q2R_Qsum : forall n f, Q2R (Qsum n f) = Rsum n (fun i => Q2R (f i)).
Proof.
  induction n as [|n IH]; intros f; cbn [Qsum Rsum].
  - unfold Q2R; cbn; lra.
  - rewrite Q2R_Qred, Q2R_plus, IH. reflexivity.
Qed.

Lemma Q2R_0 : Q2R 0 = 0%R.
Proof. unfold Q2R; cbn; lra. Qed.

Lemma Q2R_1 : Q2R 1 = 1%R.
Proof. unfold Q2R; cbn; lra. Qed.

Lemma is_zero_Q2R : forall q, is_zero q = true -> Q2R q = 0%R.
Proof.
  intros q H. apply Qeq_bool_eq in H. rewrite (Qeq_eqR _ _ H). apply Q2R_0.
Qed.

(** ** The tableau *)

Lemma nth_error_nth_ok : forall A (l : list A) n d,
  n < length l -> nth_error l n = Some (nth n l d).
Proof. intros. now apply nth_error_nth'. Qed.

Lemma get_coefficient_ok : forall tb i j, wf_tableau tb ->
  i < t_rows tb -> j < t_columns tb ->
  get_coefficient tb (S i) (S j) = Ok (mat (method_of_tableau tb) i j).
Proof.
  intros tb i j (E & P & La & Lb & Ld & Lc) Hi Hj.
  unfold get_coefficient.
  replace (1 <=? S i) with true by (symmetry; apply Nat.leb_le; lia).
  replace (S i <=? t_rows tb) with true by (symmetry; apply Nat.leb_le; lia).
  replace (1 <=? S j) with true by (symmetry; apply Nat.leb_le; lia).
  replace (S j <=? t_columns tb) with true by (symmetry; apply Nat.leb_le; lia).
  cbn [andb assert_ok bind].
  replace ((S i - 1) * t_columns tb + (S j - 1)) with (i * t_columns tb + j)
    by (rewrite !Nat.sub_succ, !Nat.sub_0_r; reflexivity).
  rewrite (nth_error_nth_ok _ _ _ 0%Q).
  - reflexivity.
  - rewrite La. nia.
Qed.

Lemma get_weight_ok : forall tb j, wf_tableau tb -> j < t_columns tb ->
  get_weight tb (S j) = Ok (wts (method_of_tableau tb) j).
Proof.
  intros tb j (E & P & La & Lb & Ld & Lc) Hj. unfold get_weight.
  replace (1 <=? S j) with true by (symmetry; apply Nat.leb_le; lia).
  replace (S j <=? t_columns tb) with true by (symmetry; apply Nat.leb_le; lia).
  cbn [andb assert_ok bind].
  replace (S j - 1) with j by lia.
  rewrite (nth_error_nth_ok _ _ _ 0%Q) by lia. reflexivity.
Qed.

Lemma get_adaptive_weight_ok : forall tb j, wf_tableau tb -> j < t_columns tb ->
  get_adaptive_weight tb (S j) = Ok (embedded_weights tb j).
Proof.
  intros tb j (E & P & La & Lb & Ld & Lc) Hj. unfold get_adaptive_weight.
  replace (1 <=? S j) with true by (symmetry; apply Nat.leb_le; lia).
  replace (S j <=? t_columns tb) with true by (symmetry; apply Nat.leb_le; lia).
  cbn [andb assert_ok bind].
  replace (S j - 1) with j by lia.
  rewrite (nth_error_nth_ok _ _ _ 0%Q) by lia. reflexivity.
Qed.

Lemma get_node_ok : forall tb i, wf_tableau tb -> i < t_rows tb ->
  get_node tb (S i) = Ok (nds (method_of_tableau tb) i).
Proof.
  intros tb i (E & P & La & Lb & Ld & Lc) Hj. unfold get_node.
  replace (1 <=? S i) with true by (symmetry; apply Nat.leb_le; lia).
  replace (S i <=? t_rows tb) with true by (symmetry; apply Nat.leb_le; lia).
  cbn [andb assert_ok bind].
  replace (S i - 1) with i by lia.
  rewrite (nth_error_nth_ok _ _ _ 0%Q) by lia. reflexivity.
Qed.

(** ** The generated sums *)

Lemma slope_vars_nth : forall tb x j, j < t_rows tb ->
  nth_error (slope_vars tb x) j = Some (Slope x (S j)).
Proof.
  intros tb x j H. unfold slope_vars.
  rewrite (map_nth_error (Slope x) j (seq 1 (t_rows tb)) (d := S j)); [reflexivity|].
  rewrite (nth_error_nth_ok _ _ _ 0) by (rewrite seq_length; lia).
  rewrite seq_nth by lia. reflexivity.
Qed.

Lemma sum_from_ok : forall tb x coef q ix n i acc,
  (forall j, i <= j < i + n -> coef (S j) = Ok (q j)) ->
  i + n <= t_rows tb ->
  exists e, sum_from coef (slope_vars tb x) ix (S i) n acc = Ok e /\
    (forall t h clock hid vis,
       eval t h clock hid vis e =
       (eval t h clock hid vis acc
        + Rsum n (fun j => Q2R (q (i + j)%nat) * vis (Slope x (S (i + j))%nat, ix)))%R) /\
    (forall v, reads e v -> reads acc v \/
       exists j, i <= j < i + n /\ is_zero (q j) = false /\ v = (Slope x (S j), ix)).
Proof.
  intros tb x coef q ix. induction n as [|n IH]; intros i acc C B.
  - cbn. exists acc. repeat split; intros; cbn; try lra; auto.
  - cbn [sum_from]. rewrite (C i) by lia. cbn [bind].
    destruct (is_zero (q i)) eqn:Z.
    + destruct (IH (S i) acc) as (e & E1 & E2 & E3); [intros; apply C; lia|lia|].
      exists e. split; [exact E1|]. split.
      * intros t h clock hid vis. rewrite E2, Rsum_shift.
        rewrite (is_zero_Q2R (q (i + 0))) by (rewrite Nat.add_0_r; exact Z).
        rewrite (Rsum_ext n (fun j => _) (fun j =>
          (Q2R (q (i + S j)%nat) * vis (Slope x (S (i + S j))%nat, ix))%R)).
        -- lra.
        -- intros j _. rewrite !Nat.add_succ_r. reflexivity.
      * intros v R. destruct (E3 v R) as [K | (j & J & N & V)]; [now left|].
        right. exists j. repeat split; auto; lia.
    + replace (S i - 1) with i by lia. rewrite slope_vars_nth by lia.
      cbn [of_option bind].
      destruct (IH (S i) (EAdd acc (EMul (EConst (q i)) (EGet (Slope x (S i), ix)))))
        as (e & E1 & E2 & E3); [intros; apply C; lia|lia|].
      exists e. split; [exact E1|]. split.
      * intros t h clock hid vis. rewrite E2, Rsum_shift. cbn [eval].
        rewrite Nat.add_0_r.
        rewrite (Rsum_ext n (fun j => (Q2R (q (S i + j)%nat) * _)%R) (fun j =>
          (Q2R (q (i + S j)%nat) * vis (Slope x (S (i + S j))%nat, ix))%R)).
        -- lra.
        -- intros j _. rewrite !Nat.add_succ_r. reflexivity.
      * intros v R. destruct (E3 v R) as [K | (j & J & N & V)].
        -- cbn in K. destruct K as [K | [[] | K]]; [now left|].
           right. exists i. repeat split; auto; lia.
        -- right. exists j. repeat split; auto; lia.
Qed.

Lemma weighted_sum_ok : forall tb x coef q ix,
  (forall j, j < t_rows tb -> coef (S j) = Ok (q j)) ->
  exists e, weighted_sum coef (slope_vars tb x) ix (t_rows tb) = Ok e /\
    (forall t h clock hid vis,
       eval t h clock hid vis e =
       Rsum (t_rows tb) (fun j => (Q2R (q j) * vis (Slope x (S j), ix))%R)) /\
    (forall v, reads e v ->
       exists j, j < t_rows tb /\ is_zero (q j) = false /\ v = (Slope x (S j), ix)).
Proof.
  intros tb x coef q ix C.
  destruct (sum_from_ok tb x coef q ix (t_rows tb) 0 (EConst 0)) as (e & E1 & E2 & E3).
  - intros j J. apply C. lia.
  - lia.
  - exists e. split; [exact E1|]. split.
    + intros. rewrite E2. cbn [eval Nat.add]. rewrite Q2R_0. lra.
    + intros v R. destruct (E3 v R) as [[] | (j & J & K)].
      exists j. split; [lia|]. exact K.
Qed.

Lemma has_nonzero_from_ok : forall tb i n k, wf_tableau tb -> i < t_rows tb ->
  k + n = t_columns tb ->
  exists b, has_nonzero_from tb (S i) (S k) n = Ok b /\
    (b = false -> forall j, k <= j < k + n ->
       is_zero (mat (method_of_tableau tb) i j) = true).
Proof.
  intros tb i. induction n as [|n IH]; intros k W I K.
  - exists false. split; [reflexivity|]. intros; lia.
  - cbn [has_nonzero_from]. rewrite get_coefficient_ok by (auto; lia).
    cbn [bind]. destruct (is_zero (mat (method_of_tableau tb) i k)) eqn:Z; cbn [negb].
    + destruct (IH (S k)) as (b & E & F); [auto|auto|lia|].
      exists b. split; [exact E|]. intros Hb j J.
      destruct (Nat.eq_dec j k) as [->|]; [exact Z|]. apply F; [exact Hb|lia].
    + exists true. split; [reflexivity|]. discriminate.
Qed.

Lemma has_nonzero_ok : forall tb i, wf_tableau tb -> i < t_rows tb ->
  exists b, has_nonzero_coefficients tb (S i) = Ok b /\
    (b = false -> forall j, j < t_rows tb ->
       is_zero (mat (method_of_tableau tb) i j) = true).
Proof.
  intros tb i W I.
  destruct (has_nonzero_from_ok tb i (t_columns tb) 0 W I eq_refl) as (b & E & F).
  exists b. split; [exact E|]. intros Hb j J. apply F; [exact Hb|].
  destruct W as (W & _). lia.
Qed.

Lemma point_eqb_refl : forall p, point_eqb p p = true.
Proof. intros p. unfold point_eqb. now destruct (list_eq_dec Z.eq_dec p p). Qed.

Lemma point_eqb_true : forall p q, point_eqb p q = true -> p = q.
Proof. intros p q. unfold point_eqb. now destruct (list_eq_dec Z.eq_dec p q). Qed.

(** The valuation the function of an equation of the state [x] is run on. *)
Definition call_values (m : model) (x : nat) (own : point -> R) (hid : memory)
    : nat -> point -> R :=
  fun w q =>
    if Nat.eqb w x then own q
    else if has_future m w then hid (Fut w, q) else hid (Cur w, q).

(** The array passed for the state. *)
Definition stage_array (tb : tableau) (x i : nat) (h : R) (vis : memory) (ix q : point)
    : R :=
  if point_eqb q ix then
    (vis (Cur x, ix) + h * Rsum (t_rows tb) (fun j =>
       Q2R (mat (method_of_tableau tb) i j) * vis (Slope x (S j), ix)))%R
  else vis (Cur x, q).

Lemma slope_equation_ok : forall m tb x e i p, wf_tableau tb -> i < t_rows tb ->
  (forall t f g, (forall w q, f w q = g w q) -> e_rhs e t f p = e_rhs e t g p) ->
  exists rhs, slope_equation m tb x e (S i) p = Ok ((Slope x (S i), e_access e p), rhs) /\
    (forall t h clock hid vis, eval t h clock hid vis rhs =
       e_rhs e (t + Q2R (nds (method_of_tableau tb) i) * h)%R
         (call_values m x (stage_array tb x i h vis (e_access e p)) hid) p) /\
    (forall v, reads rhs v -> fst v = Cur x \/
       exists j, j < t_rows tb /\ is_zero (mat (method_of_tableau tb) i j) = false /\
         v = (Slope x (S j), e_access e p)).
Proof.
  intros m tb x e i p W I X. unfold slope_equation.
  replace (S i - 1) with i by lia.
  rewrite slope_vars_nth, get_node_ok by auto. cbn [of_option bind].
  destruct (has_nonzero_ok tb i W I) as (nz & -> & Nz). cbn [bind].
  set (time := if is_zero _ then ETime else _).
  assert (Et : forall t h clock hid vis, eval t h clock hid vis time =
                 (t + Q2R (nds (method_of_tableau tb) i) * h)%R).
  { intros. unfold time. destruct (is_zero (nds (method_of_tableau tb) i)) eqn:Z; cbn [eval].
    - rewrite (is_zero_Q2R _ Z). lra.
    - reflexivity. }
  assert (Rt : forall v, ~ reads time v).
  { intros v. unfold time. destruct (is_zero _); cbn; tauto. }
  destruct nz.
  - replace (t_columns tb) with (t_rows tb) by apply W.
    destruct (weighted_sum_ok tb x (get_coefficient tb (S i))
                (mat (method_of_tableau tb) i) (e_access e p)) as (s & -> & Es & Rs).
    { intros j J. apply get_coefficient_ok; auto. destruct W as (W & _). lia. }
    cbn [bind]. eexists. split; [reflexivity|]. split.
    + intros. cbn [eval]. rewrite Et, Es. apply X. intros w q.
      unfold call_values, stage_array.
      destruct (Nat.eqb w x); [|reflexivity]. destruct (point_eqb q (e_access e p)); reflexivity.
    + intros v H. cbn [reads] in H. destruct H as [H | [H | H]]; auto.
      * now apply Rt in H.
      * destruct H as [-> | [[] | H]]; [now left|]. right. now apply Rs.
  - cbn [bind]. eexists. split; [reflexivity|]. split.
    + intros. cbn [eval]. rewrite Et. apply X. intros w q.
      unfold call_values, stage_array.
      destruct (Nat.eqb w x); [|reflexivity].
      destruct (point_eqb q (e_access e p)) eqn:Q; [|reflexivity].
      apply point_eqb_true in Q. subst q.
      rewrite (Rsum_ext _ _ (fun _ => 0%R)).
      * rewrite Rsum_zero. lra.
      * intros j J. rewrite (is_zero_Q2R _ (Nz eq_refl j J)). lra.
    + intros v H. cbn [reads] in H. destruct H as [H | [H | []]]; auto. now apply Rt in H.
Qed.

Lemma future_equation_ok : forall tb x e p, wf_tableau tb ->
  exists rhs, future_equation tb x e p = Ok ((Fut x, e_access e p), rhs) /\
    (forall t h clock hid vis, eval t h clock hid vis rhs =
       (vis (Cur x, e_access e p) + h * Rsum (t_rows tb) (fun j =>
          Q2R (wts (method_of_tableau tb) j) * vis (Slope x (S j), e_access e p)))%R) /\
    (forall v, reads rhs v -> fst v = Cur x \/
       exists j, j < t_rows tb /\ v = (Slope x (S j), e_access e p)).
Proof.
  intros tb x e p W. unfold future_equation.
  replace (t_columns tb) with (t_rows tb) by apply W.
  destruct (weighted_sum_ok tb x (get_weight tb) (wts (method_of_tableau tb)) (e_access e p))
    as (s & -> & Es & Rs).
  { intros j J. apply get_weight_ok; auto. destruct W as (W & _). lia. }
  cbn [bind]. eexists. split; [reflexivity|]. split.
  - intros. cbn [eval]. rewrite Es. reflexivity.
  - intros v H. cbn [reads] in H. destruct H as [-> | [[] | H]]; [now left|].
    right. destruct (Rs v H) as (j & J & _ & V). eauto.
Qed.

Lemma error_equation_ok : forall tb x e p, wf_tableau tb ->
  exists rhs, error_equation tb x e p = Ok ((Err x, e_access e p), rhs) /\
    (forall t h clock hid vis, eval t h clock hid vis rhs =
       (h * Rsum (t_rows tb) (fun j =>
          (Q2R (wts (method_of_tableau tb) j) - Q2R (embedded_weights tb j))
          * vis (Slope x (S j), e_access e p)))%R) /\
    (forall v, reads rhs v -> exists j, j < t_rows tb /\ v = (Slope x (S j), e_access e p)).
Proof.
  intros tb x e p W. unfold error_equation.
  replace (t_columns tb) with (t_rows tb) by apply W.
  destruct (weighted_sum_ok tb x (weight_difference tb)
              (fun j => (wts (method_of_tableau tb) j - embedded_weights tb j)%Q)
              (e_access e p)) as (s & -> & Es & Rs).
  { intros j J. unfold weight_difference.
    rewrite get_weight_ok by (auto; destruct W as (W & _); lia). cbn [bind].
    rewrite get_adaptive_weight_ok by (auto; destruct W as (W & _); lia). reflexivity. }
  cbn [bind]. eexists. split; [reflexivity|]. split.
  - intros. cbn [eval]. rewrite Es. f_equal. apply Rsum_ext. intros j _.
    rewrite Q2R_minus. reflexivity.
  - intros v H. cbn [reads] in H. destruct H as [[] | H].
    destruct (Rs v H) as (j & J & _ & V). eauto.
Qed.

(** ** The equations of the step *)

Lemma collect_ok : forall A B (f : A -> res (list B)) l,
  (forall a, In a l -> exists r, f a = Ok r) -> exists r, collect f l = Ok r.
Proof.
  intros A B f. induction l as [|a l IH]; intros H; cbn [collect]; [eauto|].
  destruct (H a (or_introl eq_refl)) as (r & ->).
  destruct IH as (r' & ->); [intros; apply H; now right|]. cbn. eauto.
Qed.

Lemma collect_In : forall A B (f : A -> res (list B)) l r b,
  collect f l = Ok r ->
  (In b r <-> exists a ra, In a l /\ f a = Ok ra /\ In b ra).
Proof.
  intros A B f. induction l as [|a l IH]; intros r b H; cbn [collect] in H.
  - injection H as <-. split; [intros []|intros (a & ra & [] & _)].
  - apply bind_ok in H. destruct H as (x & Fa & H).
    apply bind_ok in H. destruct H as (y & C & H). injection H as <-.
    rewrite in_app_iff, (IH y b C). split.
    + intros [K | (a' & ra & K)].
      * exists a, x. auto using in_eq.
      * exists a', ra. intuition.
    + intros (a' & ra & [<- | I] & F & K).
      * left. rewrite Fa in F. injection F as <-. exact K.
      * right. eauto.
Qed.

Lemma at_points_In : forall B e (f : point -> res B) r b,
  at_points e f = Ok r ->
  (In b r <-> exists p, In p (e_indices e) /\ f p = Ok b).
Proof.
  intros B e f r b H. unfold at_points in H. rewrite (collect_In _ _ _ _ _ b H).
  split.
  - intros (p & ra & I & F & K). apply bind_ok in F. destruct F as (b' & F & E).
    injection E as <-. destruct K as [<- | []]. eauto.
  - intros (p & I & F). exists p, [b]. rewrite F. cbn. auto.
Qed.

Lemma in_find_unique : forall (l : list (nat * nat)) x d,
  NoDup (map fst l) -> In (x, d) l ->
  find (fun p => Nat.eqb (fst p) x) l = Some (x, d).
Proof.
  induction l as [|[a b] l IH]; intros x d N I; [destruct I|].
  cbn in N. inversion N as [|? ? Nx N']; subst.
  cbn [find fst]. destruct I as [E | I].
  - injection E as -> ->. now rewrite Nat.eqb_refl.
  - destruct (Nat.eqb_spec a x) as [-> | _]; [|now apply IH].
    destruct Nx. change x with (fst (x, d)). now apply in_map.
Qed.

Lemma in_find_unique_snd : forall (l : list (nat * nat)) x d,
  NoDup (map snd l) -> In (x, d) l ->
  find (fun p => Nat.eqb (snd p) d) l = Some (x, d).
Proof.
  induction l as [|[a b] l IH]; intros x d N I; [destruct I|].
  cbn in N. inversion N as [|? ? Nx N']; subst.
  cbn [find snd]. destruct I as [E | I].
  - injection E as -> ->. now rewrite Nat.eqb_refl.
  - destruct (Nat.eqb_spec b d) as [-> | _]; [|now apply IH].
    destruct Nx. change d with (snd (x, d)). now apply in_map.
Qed.

Lemma derivative_iff : forall m x d, wf_model m ->
  (derivative m x = Some d <-> In (x, d) (m_ders m)).
Proof.
  intros m x d (_ & N & _ & _). unfold derivative. split.
  - destruct (find _ (m_ders m)) as [[a b]|] eqn:F; cbn; [|discriminate].
    intros E. injection E as <-. apply find_some in F. cbn in F.
    destruct F as (I & E). apply Nat.eqb_eq in E. now subst a.
  - intros I. now rewrite (in_find_unique _ _ _ N I).
Qed.

Lemma derived_iff : forall m x d, wf_model m ->
  (derived m d = Some x <-> In (x, d) (m_ders m)).
Proof.
  intros m x d (_ & _ & N & _). unfold derived. split.
  - destruct (find _ (m_ders m)) as [[a b]|] eqn:F; cbn; [|discriminate].
    intros E. injection E as <-. apply find_some in F. cbn in F.
    destruct F as (I & E). apply Nat.eqb_eq in E. now subst b.
  - intros I. now rewrite (in_find_unique_snd _ _ _ N I).
Qed.

Lemma states_iff : forall m x, wf_model m ->
  (In x (states m) <-> In x (map fst (m_ders m))).
Proof.
  intros m x W. unfold states. rewrite filter_In. split.
  - intros (_ & S). destruct (derivative m x) as [d|] eqn:D; [|discriminate].
    apply derivative_iff in D; auto. change x with (fst (x, d)). now apply in_map.
  - intros I. apply in_map_iff in I. destruct I as ([a d] & <- & I). cbn [fst].
    split.
    + apply W in I. apply I.
    + apply derivative_iff in I; auto. now rewrite I.
Qed.

Lemma has_future_iff : forall m v, wf_model m ->
  (has_future m v = true <-> In v (map fst (m_ders m)) \/ In v (map snd (m_ders m))).
Proof.
  intros m v W. unfold has_future. rewrite existsb_exists. split.
  - intros (x & I & H). apply orb_true_iff in H. destruct H as [H | H].
    + apply Nat.eqb_eq in H. subst v. left. now apply states_iff.
    + destruct (derivative m x) as [d|] eqn:D; [|discriminate].
      apply Nat.eqb_eq in H. subst v. apply derivative_iff in D; auto.
      right. change d with (snd (x, d)). now apply in_map.
  - intros [I | I].
    + exists v. split; [now apply states_iff|]. now rewrite Nat.eqb_refl.
    + apply in_map_iff in I. destruct I as ([x d] & <- & I). exists x. split.
      * apply states_iff; auto. change x with (fst (x, d)). now apply in_map.
      * apply derivative_iff in I; auto. rewrite I. cbn [snd].
        rewrite Nat.eqb_refl. apply orb_true_r.
Qed.

Lemma plain_no_future : forall m v, wf_model m ->
  (plain m v <-> has_future m v = false).
Proof.
  intros m v W. pose proof (has_future_iff m v W) as H. unfold plain.
  destruct (has_future m v); intuition congruence.
Qed.

Lemma der_matched_In : forall m sccs ds, der_matched m sccs = Some ds ->
  forall s, In s ds <->
    In s sccs /\ existsb (fun e => is_some (derived m (e_match e))) (s_equations s) = true.
Proof.
  intros m. induction sccs as [|s0 sccs IH]; intros ds H s; cbn in H.
  - injection H as <-. cbn. tauto.
  - destruct (existsb _ (s_equations s0)) eqn:X; cbn [negb] in H.
    + destruct (s_cycle s0); [discriminate|].
      destruct (der_matched m sccs) as [ds'|] eqn:D; [|discriminate].
      injection H as <-. cbn [In]. rewrite (IH ds' eq_refl s). split.
      * intros [<- | K]; [auto|intuition].
      * intros ([<- | I] & K); [now left|]. right. auto.
    + rewrite (IH ds H s). cbn [In]. split; [intuition|].
      intros ([<- | I] & K); [congruence|auto].
Qed.

Lemma equation_functions_In : forall m x ds es, wf_model m ->
  equation_functions m ds x = Ok es ->
  forall e, In e es <-> gives_derivative m ds x e.
Proof.
  intros m x ds es W. revert es.
  induction ds as [|s ds IH]; intros es H e; cbn in H.
  - injection H as <-. split; [intros []|intros (s & [] & _)].
  - destruct (s_equations s) as [|e0 [|]] eqn:S; try discriminate.
    apply bind_ok in H. destruct H as (l & Hl & H). injection H as <-.
    assert (G : gives_derivative m (s :: ds) x e <->
                (e = e0 /\ derived m (e_match e) = Some x) \/ gives_derivative m ds x e).
    { unfold gives_derivative. split.
      - intros (s' & [<- | I] & E & D).
        + left. rewrite S in E. destruct E as [<- | []]. split; auto.
          now apply derived_iff.
        + right. eauto.
      - intros [(-> & D) | (s' & I & E & D)].
        + exists s. rewrite S. apply derived_iff in D; auto. cbn. auto.
        + exists s'. cbn. auto. }
    rewrite G, <- (IH l Hl e).
    destruct (derived m (e_match e0)) as [y|] eqn:D.
    + destruct (Nat.eqb_spec y x) as [-> | N].
      * cbn [In]. split; [intros [<- | K]; auto|intros [(-> & _) | K]; auto].
      * split; [auto|]. intros [(-> & K) | K]; [congruence|auto].
    + split; [auto|]. intros [(-> & K) | K]; [congruence|auto].
Qed.

Lemma gives_derivative_ds : forall m sccs ds x e, wf_model m ->
  der_matched m sccs = Some ds ->
  (gives_derivative m ds x e <-> gives_derivative m sccs x e).
Proof.
  intros m sccs ds x e W D. unfold gives_derivative. split.
  - intros (s & I & E & K). apply (der_matched_In _ _ _ D) in I. exists s. intuition.
  - intros (s & I & E & K). exists s. split; [|auto].
    apply (der_matched_In _ _ _ D). split; [exact I|].
    apply existsb_exists. exists e. split; [exact E|].
    apply derived_iff in K; auto. now rewrite K.
Qed.

(** The equations for the states [xs]. *)
Lemma step_equations_In : forall m tb ds xs eqs, wf_model m ->
  step_equations m tb ds xs = Ok (Some eqs) ->
  forall q, In q eqs <->
    exists x, In x xs /\
      ((exists e p i, gives_derivative m ds x e /\ In p (e_indices e) /\ i < t_rows tb /\
          slope_equation m tb x e (S i) p = Ok q) \/
       (exists e p, gives_derivative m ds x e /\ In p (e_indices e) /\
          future_equation tb x e p = Ok q) \/
       (exists s e p, In s ds /\ In e (s_equations s) /\ In p (e_indices e) /\
          q = clone_equation m e p)).
Proof.
  intros m tb ds xs eqs W. revert eqs.
  induction xs as [|x xs IH]; intros eqs H q; cbn [step_equations] in H.
  - injection H as <-. split; [intros []|intros (x & [] & _)].
  - apply bind_ok in H. destruct H as (es & He & H).
    destruct es as [|e0 es']; [discriminate|].
    remember (e0 :: es') as es eqn:Ees. clear Ees e0 es'.
    apply bind_ok in H. destruct H as (sl & Hsl & H).
    apply bind_ok in H. destruct H as (fu & Hfu & H).
    apply bind_ok in H. destruct H as (nx & Hnx & H).
    destruct nx as [nx|]; [|discriminate]. cbn in H. injection H as <-.
    rewrite !in_app_iff, (IH nx Hnx q).
    assert (A1 : In q sl <-> exists e p i, gives_derivative m ds x e /\
              In p (e_indices e) /\ i < t_rows tb /\
              slope_equation m tb x e (S i) p = Ok q).
    { unfold slope_equations in Hsl. rewrite (collect_In _ _ _ _ _ q Hsl). split.
      - intros (i & ra & I & F & K). apply in_seq in I.
        rewrite (collect_In _ _ _ _ _ q F) in K. destruct K as (e & rb & I' & F' & K).
        rewrite (at_points_In _ _ _ _ q F') in K. destruct K as (p & P & Sl).
        exists e, p, (i - 1). replace (S (i - 1)) with i by lia.
        rewrite <- (equation_functions_In m x ds es W He). repeat split; auto. lia.
      - intros (e & p & i & G & P & I & Sl).
        apply (equation_functions_In m x ds es W He) in G.
        assert (T : exists r, collect (fun e => at_points e (slope_equation m tb x e (S i))) es = Ok r).
        { clear - Hsl I.
          assert (In (S i) (seq 1 (t_rows tb))) by (apply in_seq; lia).
          revert H sl Hsl. generalize (seq 1 (t_rows tb)) as l.
          induction l as [|a l IH]; intros I' sl Hsl; [destruct I'|].
          cbn [collect] in Hsl. apply bind_ok in Hsl. destruct Hsl as (r & F & Hsl).
          apply bind_ok in Hsl. destruct Hsl as (r' & F' & _).
          destruct I' as [-> | I']; eauto. }
        destruct T as (r & T). exists (S i), r. split; [apply in_seq; lia|].
        split; [exact T|]. rewrite (collect_In _ _ _ _ _ q T).
        assert (U : exists ra, at_points e (slope_equation m tb x e (S i)) = Ok ra).
        { clear - T G. revert r T. induction es as [|a l IH]; intros r T; [destruct G|].
          cbn [collect] in T. apply bind_ok in T. destruct T as (r1 & F & T).
          apply bind_ok in T. destruct T as (r' & F' & _).
          destruct G as [-> | G]; eauto. }
        destruct U as (ra & U). exists e, ra. split; [exact G|]. split; [exact U|].
        rewrite (at_points_In _ _ _ _ q U). eauto. }
    assert (A2 : In q fu <-> exists e p, gives_derivative m ds x e /\ In p (e_indices e) /\
              future_equation tb x e p = Ok q).
    { unfold future_equations in Hfu. rewrite (collect_In _ _ _ _ _ q Hfu). split.
      - intros (e & ra & I & F & K). rewrite (at_points_In _ _ _ _ q F) in K.
        destruct K as (p & P & S). exists e, p.
        now rewrite <- (equation_functions_In m x ds es W He).
      - intros (e & p & G & P & S).
        apply (equation_functions_In m x ds es W He) in G.
        assert (U : exists ra, at_points e (future_equation tb x e) = Ok ra).
        { clear - Hfu G. revert fu Hfu. induction es as [|a l IH]; intros r T; [destruct G|].
          cbn [collect] in T. apply bind_ok in T. destruct T as (r1 & F & T).
          apply bind_ok in T. destruct T as (r' & F' & _).
          destruct G as [-> | G]; eauto. }
        destruct U as (ra & U). exists e, ra. split; [exact G|]. split; [exact U|].
        rewrite (at_points_In _ _ _ _ q U). eauto. }
    assert (A3 : In q (flat_map (fun s => flat_map (fun e =>
                   map (clone_equation m e) (e_indices e)) (s_equations s)) ds) <->
                 exists s e p, In s ds /\ In e (s_equations s) /\ In p (e_indices e) /\
                   q = clone_equation m e p).
    { rewrite in_flat_map. split.
      - intros (s & I & K). apply in_flat_map in K. destruct K as (e & E & K).
        apply in_map_iff in K. destruct K as (p & <- & P). exists s, e, p. auto.
      - intros (s & e & p & I & E & P & ->). exists s. split; [exact I|].
        apply in_flat_map. exists e. split; [exact E|]. now apply in_map. }
    rewrite A1, A2, A3. split.
    + intros [K | [K | [K | (y & I & K)]]].
      * exists x. split; [now left|]. now left.
      * exists x. split; [now left|]. right. now left.
      * exists x. split; [now left|]. right. now right.
      * exists y. split; [now right|]. exact K.
    + intros (y & [<- | I] & K).
      * destruct K as [K | [K | K]]; auto.
      * right. right. right. eauto.
Qed.

(** The three kinds of equations of a step. *)
Lemma try_step_In : forall m tb sccs eqs, wf_model m ->
  try_step m tb sccs = Ok (Some eqs) ->
  forall q, In q eqs <->
    exists x e p, gives_derivative m sccs x e /\ In p (e_indices e) /\
      ((exists i, i < t_rows tb /\ slope_equation m tb x e (S i) p = Ok q) \/
       future_equation tb x e p = Ok q \/
       q = clone_equation m e p).
Proof.
  intros m tb sccs eqs W H q. unfold try_step in H.
  destruct (der_matched m sccs) as [ds|] eqn:D; [|discriminate].
  rewrite (step_equations_In m tb ds _ _ W H q). split.
  - intros (x & I & [(e & p & i & G & P & L & S) | [(e & p & G & P & S) |
                     (s & e & p & Is & E & P & S)]]).
    + exists x, e, p. rewrite <- (gives_derivative_ds m sccs ds x e W D). split; [exact G|].
      split; [exact P|]. left. eauto.
    + exists x, e, p. rewrite <- (gives_derivative_ds m sccs ds x e W D). auto.
    + (* the equation copied is the only one of an SCC matched with a derivative *)
      assert (One : s_equations s = [e]).
      { clear - H I Is E. destruct (states m) as [|y ys]; [destruct I|].
        cbn [step_equations] in H. apply bind_ok in H. destruct H as (es & He & _).
        clear I ys. revert es He. induction ds as [|s0 ds IH]; intros es He; [destruct Is|].
        cbn [equation_functions] in He. destruct (s_equations s0) as [|e1 [|]] eqn:S0;
          try discriminate.
        destruct Is as [-> | Is].
        - rewrite S0 in *. destruct E as [<- | []]. reflexivity.
        - apply bind_ok in He. destruct He as (l & Hl & _). eauto. }
      pose proof Is as Is'. apply (der_matched_In _ _ _ D) in Is'.
      destruct Is' as (Is0 & X). rewrite One in X. cbn in X. rewrite orb_false_r in X.
      destruct (derived m (e_match e)) as [y|] eqn:Y; [|discriminate].
      exists y, e, p. split; [|auto]. exists s. split; [exact Is0|]. split; [exact E|].
      now apply derived_iff.
  - intros (x & e & p & G & P & K). exists x. split.
    + destruct G as (s & _ & _ & K'). apply states_iff; auto.
      change x with (fst (x, e_match e)). now apply in_map.
    + apply (gives_derivative_ds m sccs ds x e W D) in G.
      destruct K as [(i & L & Sl) | [Sl | ->]].
      * left. exists e, p, i. auto.
      * right. left. eauto.
      * right. right. destruct G as (s & I & E & _). exists s, e, p. auto.
Qed.

(** ** Running the equations in an order *)

(** The equations a generated expression calls or copies are framed. *)
Fixpoint exp_framed (e : rexp) : Prop :=
  match e with
  | EConst _ | ETime | EStep | EGet _ => True
  | EAdd a b | EMul a b => exp_framed a /\ exp_framed b
  | ECall _ _ e time own _ =>
      framed e /\ exp_framed time /\
      match own with Some (_, a) => exp_framed a | None => True end
  | EClone _ e _ => framed e
  end.

Fixpoint eval_reads (t h clock : R) (hid vis vis' : memory) (e : rexp) {struct e} :
  exp_framed e -> (forall v, reads e v -> vis v = vis' v) ->
  eval t h clock hid vis e = eval t h clock hid vis' e.
Proof.
  destruct e as [q| | |v|a b|a b|m x e time own p|m e p]; cbn [exp_framed reads eval];
    intros F V; try reflexivity.
  - now apply V.
  - rewrite (eval_reads t h clock hid vis vis' a), (eval_reads t h clock hid vis vis' b);
      intuition.
  - rewrite (eval_reads t h clock hid vis vis' a), (eval_reads t h clock hid vis vis' b);
      intuition.
  - destruct F as (F & Ft & Fo).
    rewrite (eval_reads t h clock hid vis vis' time); [|exact Ft|auto].
    apply F. intros w q _. destruct (Nat.eqb w x); [|reflexivity].
    destruct own as [[ix a]|].
    + destruct (point_eqb q ix).
      * apply eval_reads; [exact Fo|]. auto.
      * apply V. now left.
    + apply V. now left.
  - apply F. intros w q I. destruct (has_future m w) eqn:U.
    + apply V. exists (w, q). cbn [fst snd]. rewrite U. auto.
    + apply V. exists (w, q). cbn [fst snd]. rewrite U. auto.
Qed.

Lemma set_mem_same : forall mem v r, set_mem mem v r v = r.
Proof. intros. unfold set_mem. now destruct (rvar_eq_dec v v). Qed.

Lemma set_mem_other : forall mem v r w, w <> v -> set_mem mem v r w = mem w.
Proof. intros. unfold set_mem. now destruct (rvar_eq_dec w v). Qed.

Lemma exec_unwritten : forall t h clock l mem w,
  (forall e, ~ In (w, e) l) -> exec t h clock l mem w = mem w.
Proof.
  intros t h clock. induction l as [|[v e] l IH]; intros mem w H; cbn [exec];
    [reflexivity|].
  rewrite IH.
  - apply set_mem_other. intros ->. apply (H e). now left.
  - intros e' I. apply (H e'). now right.
Qed.

Lemma written_dec : forall (l : list requation) w,
  (exists e, In (w, e) l) \/ (forall e, ~ In (w, e) l).
Proof.
  intros l w. destruct (in_dec rvar_eq_dec w (map fst l)) as [I | N].
  - left. apply in_map_iff in I. destruct I as ([v e] & <- & I). eauto.
  - right. intros e I. apply N. change w with (fst (w, e)). now apply in_map.
Qed.

Lemma exec_solves : forall t h clock l mem,
  ordered l ->
  (forall v e, In (v, e) l -> exp_framed e) ->
  (forall v e e', In (v, e) l -> In (v, e') l -> e = e') ->
  exists hid, solves t h clock hid l (exec t h clock l mem) /\
    (forall v w, (forall e, ~ In (w, e) l) -> hid v w = mem w).
Proof.
  intros t h clock. induction l as [|[v e] l IH]; intros mem O F U.
  - exists (fun _ => mem). split; [intros v e []|reflexivity].
  - destruct O as (O1 & O2). cbn [exec].
    set (mem1 := set_mem mem v (eval t h clock mem mem e)).
    destruct (IH mem1 O2) as (hid & Sv & A).
    { intros w e' I. apply (F w e'). now right. }
    { intros w e1 e2 I1 I2. apply (U w e1 e2); now right. }
    destruct (written_dec l v) as [(e' & I') | N].
    + exists hid. split.
      * intros w e1 [E | I]; [|now apply Sv].
        injection E as <- <-. apply Sv.
        now rewrite (U v e e' (or_introl eq_refl) (or_intror I')).
      * intros w u Nu. rewrite A.
        -- unfold mem1. apply set_mem_other. intros ->. apply (Nu e). now left.
        -- intros e1 I1. apply (Nu e1). now right.
    + exists (fun w => if rvar_eq_dec w v then mem else hid w). split.
      * intros w e1 [E | I].
        -- injection E as <- <-. destruct (rvar_eq_dec v v) as [_|]; [|congruence].
           rewrite exec_unwritten by exact N. unfold mem1 at 1. rewrite set_mem_same.
           apply eval_reads; [apply (F v e); now left|].
           intros u Ru. symmetry.
           assert (Nu : forall e', ~ In (u, e') ((v, e) :: l)).
           { intros e2 I2. exact (O1 u e2 I2 Ru). }
           rewrite exec_unwritten.
           ++ unfold mem1. apply set_mem_other. intros ->. apply (Nu e). now left.
           ++ intros e2 I2. apply (Nu e2). now right.
        -- destruct (rvar_eq_dec w v) as [-> | _]; [|now apply Sv].
           destruct (N e1 I).
      * intros w u Nu. destruct (rvar_eq_dec w v); [reflexivity|].
        rewrite A.
        -- unfold mem1. apply set_mem_other. intros ->. apply (Nu e). now left.
        -- intros e1 I1. apply (Nu e1). now right.
Qed.

(** ** The step *)

(** A valuation that goes with a state of the differential equation. *)
Definition ode_values (m : model) (others : values)
    (f : R -> (nat * point -> R) -> nat * point -> R) (t : R) (y : nat * point -> R)
    : values :=
  fun w q =>
    if is_some (derivative m w) then y (w, q)
    else match derived m w with
         | Some x => f t y (x, q)
         | None => others w q
         end.

Lemma in_fst_derivative : forall m w, wf_model m ->
  In w (map fst (m_ders m)) -> is_some (derivative m w) = true.
Proof.
  intros m w W I. apply in_map_iff in I. destruct I as ([x d] & <- & I).
  apply derivative_iff in I; auto. cbn [fst]. now rewrite I.
Qed.

Lemma not_in_fst_derivative : forall m w, wf_model m ->
  ~ In w (map fst (m_ders m)) -> is_some (derivative m w) = false.
Proof.
  intros m w W N. destruct (derivative m w) as [d|] eqn:D; [|reflexivity].
  apply derivative_iff in D; auto. destruct N.
  change w with (fst (w, d)). now apply in_map.
Qed.

Lemma ode_values_state : forall m others f t y w q, wf_model m ->
  In w (map fst (m_ders m)) -> ode_values m others f t y w q = y (w, q).
Proof. intros. unfold ode_values. now rewrite in_fst_derivative. Qed.

Lemma ode_values_plain : forall m others f t y w q, wf_model m ->
  plain m w -> ode_values m others f t y w q = others w q.
Proof.
  intros m others f t y w q W (A & B). unfold ode_values.
  rewrite not_in_fst_derivative by auto.
  destruct (derived m w) as [x|] eqn:D; [|reflexivity].
  apply derived_iff in D; auto. destruct B. change w with (snd (x, w)). now apply in_map.
Qed.

Lemma ode_values_der : forall m others f t y x d q, wf_model m -> first_order m ->
  In (x, d) (m_ders m) -> ode_values m others f t y d q = f t y (x, q).
Proof.
  intros m others f t y x d q W C I. unfold ode_values.
  rewrite not_in_fst_derivative; auto.
  - apply derived_iff in I; auto. now rewrite I.
  - intros K. apply (C d K). change d with (snd (x, d)). now apply in_map.
Qed.

Lemma is_ode_values : forall m sccs others f x e p t y, wf_model m -> first_order m ->
  is_ode m sccs others f -> gives_derivative m sccs x e -> In p (e_indices e) ->
  f t y (x, e_access e p) = e_rhs e t (ode_values m others f t y) p.
Proof.
  intros m sccs others f x e p t y W C H G P. apply (H x e p t y G P).
  - intros. now apply ode_values_state.
  - intros. now apply ode_values_plain.
  - intros. now apply ode_values_der.
Qed.

Lemma gives_state : forall m sccs x e, gives_derivative m sccs x e ->
  In x (map fst (m_ders m)).
Proof.
  intros m sccs x e (s & _ & _ & I). change x with (fst (x, e_match e)). now apply in_map.
Qed.

Lemma decoupled_ext : forall m x e p, decoupled m x e -> In p (e_indices e) ->
  forall t f g, (forall w q, f w q = g w q) -> e_rhs e t f p = e_rhs e t g p.
Proof. intros m x e p D P t f g E. apply D; auto. Qed.

Section Step.
Variables (m : model) (tb : tableau) (sccs : list scc) (eqs : list requation).
Hypothesis Wm : wf_model m.
Hypothesis Wt : wf_tableau tb.
Hypothesis Heqs : try_step m tb sccs = Ok (Some eqs).

Lemma slope_value : forall t h clock hid mem x e p i,
  solves t h clock hid eqs mem ->
  gives_derivative m sccs x e -> In p (e_indices e) -> i < t_rows tb ->
  (forall t f g, (forall w q, f w q = g w q) -> e_rhs e t f p = e_rhs e t g p) ->
  mem (Slope x (S i), e_access e p) =
  e_rhs e (t + Q2R (nds (method_of_tableau tb) i) * h)%R
    (call_values m x (stage_array tb x i h mem (e_access e p))
       (hid (Slope x (S i), e_access e p))) p.
Proof.
  intros t h clock hid mem x e p i Sv G P I X.
  destruct (slope_equation_ok m tb x e i p Wt I X) as (rhs & E & V & _).
  rewrite <- (V t h clock). apply Sv. apply (try_step_In m tb sccs eqs Wm Heqs).
  exists x, e, p. split; [exact G|]. split; [exact P|]. left. eauto.
Qed.

Lemma future_value : forall t h clock hid mem x e p,
  solves t h clock hid eqs mem ->
  gives_derivative m sccs x e -> In p (e_indices e) ->
  mem (Fut x, e_access e p) =
  (mem (Cur x, e_access e p) + h * Rsum (t_rows tb) (fun j =>
     Q2R (wts (method_of_tableau tb) j) * mem (Slope x (S j), e_access e p)))%R.
Proof.
  intros t h clock hid mem x e p Sv G P.
  destruct (future_equation_ok tb x e p Wt) as (rhs & E & V & _).
  rewrite <- (V t h clock (hid (Fut x, e_access e p)) mem).
  apply Sv. apply (try_step_In m tb sccs eqs Wm Heqs).
  exists x, e, p. auto.
Qed.

Lemma clone_value : forall t h clock hid mem x e p,
  solves t h clock hid eqs mem ->
  gives_derivative m sccs x e -> In p (e_indices e) ->
  mem (Fut (e_match e), e_access e p) =
  e_rhs e clock
    (fun w q => if has_future m w then mem (Fut w, q) else mem (Cur w, q)) p.
Proof.
  intros t h clock hid mem x e p Sv G P.
  assert (U : has_future m (e_match e) = true).
  { apply has_future_iff; auto. right. destruct G as (s & _ & _ & K).
    change (e_match e) with (snd (x, e_match e)). now apply in_map. }
  assert (I : In (clone_equation m e p) eqs).
  { apply (try_step_In m tb sccs eqs Wm Heqs). exists x, e, p. auto. }
  unfold clone_equation in I. rewrite U in I. exact (Sv _ _ I).
Qed.

Lemma step_correct : first_order m ->
  (forall x e, gives_derivative m sccs x e -> decoupled m x e) ->
  forall t h clock hid mem f,
  solves t h clock hid eqs mem ->
  (forall v w q, plain m w -> hid v (Cur w, q) = mem (Cur w, q)) ->
  is_ode m sccs (fun w q => mem (Cur w, q)) f ->
  is_slopes (method_of_tableau tb) (integrated m sccs) f t h
    (fun s => mem (Cur (fst s), snd s)) (fun i s => mem (Slope (fst s) (S i), snd s)) /\
  is_update (t_rows tb) (wts (method_of_tableau tb)) (integrated m sccs) h
    (fun s => mem (Cur (fst s), snd s)) (fun i s => mem (Slope (fst s) (S i), snd s))
    (fun s => mem (Fut (fst s), snd s)).
Proof.
  intros C D t h clock hid mem f Sv Hp Ho. split.
  - intros i [x q] I (e & p & G & P & E). cbn [fst snd] in *. subst q.
    rewrite (slope_value t h clock hid mem x e p i Sv G P I
               (decoupled_ext m x e p (D x e G) P)).
    rewrite (is_ode_values m sccs _ f x e p _ _ Wm C Ho G P).
    apply (D x e G); [exact P| |].
    + unfold call_values. rewrite Nat.eqb_refl. unfold stage_array.
      rewrite point_eqb_refl.
      rewrite ode_values_state; [reflexivity|exact Wm|].
      exact (gives_state _ _ _ _ G).
    + intros w q Pw. rewrite ode_values_plain by auto. unfold call_values.
      destruct (Nat.eqb_spec w x) as [-> | _].
      * destruct Pw as (N & _). destruct N. exact (gives_state _ _ _ _ G).
      * apply plain_no_future in Pw as N; auto. rewrite N. now apply Hp.
  - intros [x q] (e & p & G & P & E). cbn [fst snd] in *. subst q.
    exact (future_value t h clock hid mem x e p Sv G P).
Qed.

(** What the equations write. *)
Lemma step_writes : forall v e, In (v, e) eqs -> exists n q, v = (n, q) /\
  ((exists x i, n = Slope x i) \/ exists x, n = Fut x).
Proof.
  intros v e I. apply (try_step_In m tb sccs eqs Wm Heqs) in I.
  destruct I as (x & e0 & p & G & P & [(i & L & E) | [E | E]]).
  - unfold slope_equation in E. replace (S i - 1) with i in E by lia.
    rewrite slope_vars_nth in E by exact L. cbn [of_option bind] in E.
    apply bind_ok in E. destruct E as (? & _ & E).
    apply bind_ok in E. destruct E as (? & _ & E).
    apply bind_ok in E. destruct E as (? & _ & E). injection E as <- _. eauto 8.
  - unfold future_equation in E. apply bind_ok in E. destruct E as (? & _ & E).
    injection E as <- _. eauto 8.
  - unfold clone_equation in E.
    assert (U : has_future m (e_match e0) = true).
    { apply has_future_iff; auto. right. destruct G as (s & _ & _ & K).
      change (e_match e0) with (snd (x, e_match e0)). now apply in_map. }
    rewrite U in E. injection E as -> _. eauto 8.
Qed.

Lemma step_framed : (forall x e, gives_derivative m sccs x e -> framed e) ->
  forall v e, In (v, e) eqs -> exp_framed e.
Proof.
  intros F v e I. apply (try_step_In m tb sccs eqs Wm Heqs) in I.
  assert (Sum : forall coef sl ix n i acc r, exp_framed acc ->
            sum_from coef sl ix i n acc = Ok r -> exp_framed r).
  { intros coef sl ix. induction n as [|n IH]; intros i acc r A E; cbn [sum_from] in E.
    - injection E as <-. exact A.
    - apply bind_ok in E. destruct E as (q & _ & E). destruct (is_zero q); [eauto|].
      apply bind_ok in E. destruct E as (k & _ & E). apply IH in E; [exact E|].
      cbn. auto. }
  destruct I as (x & e0 & p & G & P & [(i & L & E) | [E | E]]).
  - unfold slope_equation in E.
    apply bind_ok in E. destruct E as (? & _ & E).
    apply bind_ok in E. destruct E as (? & _ & E).
    apply bind_ok in E. destruct E as (nz & _ & E).
    apply bind_ok in E. destruct E as (own & O & E). injection E as _ <-.
    cbn [exp_framed]. split; [now apply (F x)|]. split.
    + destruct (is_zero _); cbn; auto.
    + destruct nz; [|injection O as <-; exact I].
      apply bind_ok in O. destruct O as (s & Hs & O). injection O as <-.
      cbn. split; [exact I|]. split; [exact I|]. apply Sum in Hs; [exact Hs|exact I].
  - unfold future_equation in E. apply bind_ok in E. destruct E as (s & Hs & E).
    injection E as _ <-. cbn. split; [exact I|]. split; [exact I|].
    apply Sum in Hs; [exact Hs|exact I].
  - unfold clone_equation in E. injection E as _ ->. cbn. now apply (F x).
Qed.

Lemma step_unique : first_order m -> one_equation_each m sccs ->
  forall v e e', In (v, e) eqs -> In (v, e') eqs -> e = e'.
Proof.
  intros C O v e e' I I'.
  apply (try_step_In m tb sccs eqs Wm Heqs) in I, I'.
  assert (Slope_lhs : forall x e0 p i q, i < t_rows tb ->
            slope_equation m tb x e0 (S i) p = Ok q -> fst q = (Slope x (S i), e_access e0 p)).
  { intros x e0 p i q L E. unfold slope_equation in E.
    replace (S i - 1) with i in E by lia.
    rewrite slope_vars_nth in E by exact L. cbn [of_option bind] in E.
    apply bind_ok in E. destruct E as (? & _ & E).
    apply bind_ok in E. destruct E as (? & _ & E).
    apply bind_ok in E. destruct E as (? & _ & E). injection E as <-. reflexivity. }
  assert (Fut_lhs : forall x e0 p q, future_equation tb x e0 p = Ok q ->
            fst q = (Fut x, e_access e0 p)).
  { intros x e0 p q E. unfold future_equation in E. apply bind_ok in E.
    destruct E as (? & _ & E). injection E as <-. reflexivity. }
  assert (Clone_lhs : forall x e0 p, gives_derivative m sccs x e0 ->
            fst (clone_equation m e0 p) = (Fut (e_match e0), e_access e0 p)).
  { intros x e0 p G. unfold clone_equation.
    assert (U : has_future m (e_match e0) = true).
    { apply has_future_iff; auto. right. destruct G as (s & _ & _ & K).
      change (e_match e0) with (snd (x, e_match e0)). now apply in_map. }
    rewrite U. reflexivity. }
  destruct I as (x & e0 & p & G & P & K). destruct I' as (x' & e0' & p' & G' & P' & K').
  assert (Der : forall y a, gives_derivative m sccs y a -> In (e_match a) (map snd (m_ders m))).
  { intros y a (s & _ & _ & J). change (e_match a) with (snd (y, e_match a)). now apply in_map. }
  destruct K as [(i & L & E) | [E | E]]; destruct K' as [(i' & L' & E') | [E' | E']].
  - pose proof (Slope_lhs _ _ _ _ _ L E) as A. pose proof (Slope_lhs _ _ _ _ _ L' E') as A'.
    cbn [fst] in *. rewrite A in A'. injection A' as <- <- Ap.
    destruct (O x e0 p e0' p' G G' P P' Ap) as (<- & <-). rewrite E in E'.
    now injection E'.
  - pose proof (Slope_lhs _ _ _ _ _ L E) as A. pose proof (Fut_lhs _ _ _ _ E') as A'.
    cbn [fst] in *. congruence.
  - pose proof (Slope_lhs _ _ _ _ _ L E) as A. pose proof (Clone_lhs x' e0' p' G') as A'.
    rewrite <- E' in A'. cbn [fst] in *. congruence.
  - pose proof (Slope_lhs _ _ _ _ _ L' E') as A. pose proof (Fut_lhs _ _ _ _ E) as A'.
    cbn [fst] in *. congruence.
  - pose proof (Fut_lhs _ _ _ _ E) as A. pose proof (Fut_lhs _ _ _ _ E') as A'.
    cbn [fst] in *. rewrite A in A'. injection A' as <- Ap.
    destruct (O x e0 p e0' p' G G' P P' Ap) as (<- & <-). rewrite E in E'.
    now injection E'.
  - pose proof (Fut_lhs _ _ _ _ E) as A. pose proof (Clone_lhs x' e0' p' G') as A'.
    rewrite <- E' in A'. cbn [fst] in *. rewrite A in A'. injection A' as Ex _.
    destruct (C x (gives_state _ _ _ _ G)). rewrite Ex. eauto.
  - pose proof (Slope_lhs _ _ _ _ _ L' E') as A. pose proof (Clone_lhs x e0 p G) as A'.
    rewrite <- E in A'. cbn [fst] in *. congruence.
  - pose proof (Fut_lhs _ _ _ _ E') as A. pose proof (Clone_lhs x e0 p G) as A'.
    rewrite <- E in A'. cbn [fst] in *. rewrite A in A'. injection A' as Ex _.
    destruct (C x' (gives_state _ _ _ _ G')). rewrite Ex. eauto.
  - pose proof (Clone_lhs x e0 p G) as A. pose proof (Clone_lhs x' e0' p' G') as A'.
    rewrite <- E in A. rewrite <- E' in A'. cbn [fst] in *. rewrite A in A'.
    injection A' as Em Ap.
    assert (x = x') as <-.
    { destruct G as (s & _ & _ & J). destruct G' as (s' & _ & _ & J').
      rewrite <- Em in J'. apply derived_iff in J; auto. apply derived_iff in J'; auto.
      congruence. }
    destruct (O x e0 p e0' p' G G' P P' Ap) as (<- & <-). congruence.
Qed.

Lemma run_solves : first_order m -> one_equation_each m sccs ->
  (forall x e, gives_derivative m sccs x e -> framed e) ->
  forall t h clock l mem, (forall q, In q l <-> In q eqs) -> ordered l ->
  exists hid, solves t h clock hid eqs (exec t h clock l mem) /\
    (forall v w q, hid v (Cur w, q) = exec t h clock l mem (Cur w, q)) /\
    (forall w q, exec t h clock l mem (Cur w, q) = mem (Cur w, q)).
Proof.
  intros C O F t h clock l mem El Ol.
  assert (N : forall w q e, ~ In ((Cur w, q), e) l).
  { intros w q e I. apply El in I. apply step_writes in I.
    destruct I as (n & q' & E & [(x & i & ->) | (x & ->)]); discriminate. }
  destruct (exec_solves t h clock l mem Ol) as (hid & Sv & A).
  - intros v e I. apply El in I. exact (step_framed F v e I).
  - intros v e e' I I'. apply El in I, I'. exact (step_unique C O v e e' I I').
  - exists hid. split; [|split].
    + intros v e I. apply Sv. now apply El.
    + intros v w q. rewrite A by apply N. now rewrite exec_unwritten by apply N.
    + intros w q. apply exec_unwritten, N.
Qed.
End Step.
