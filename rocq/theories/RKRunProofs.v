(** Proofs about the error estimate, the acceptance of a step, the other
    variables, the time in the copied equations, and forward Euler. *)
From Coq Require Import String Bool ZArith QArith Qreals Reals List Lia Lra.
From Verif Require Import Result RKModel RKSpec RKStatements RKProofs.
Import ListNotations.
Local Open Scope nat_scope.
Local Open Scope list_scope.

(** ** The error *)

Lemma error_system_In : forall m tb ds xs eqs, wf_model m ->
  error_system m tb ds xs = Ok (Some eqs) ->
  forall q, In q eqs <->
    exists x e p, In x xs /\ gives_derivative m ds x e /\ In p (e_indices e) /\
      error_equation tb x e p = Ok q.
Proof.
  intros m tb ds xs eqs W. revert eqs.
  induction xs as [|x xs IH]; intros eqs H q; cbn [error_system] in H.
  - injection H as <-. split; [intros []|intros (x & e & p & [] & _)].
  - apply bind_ok in H. destruct H as (es & He & H).
    destruct es as [|e0 es']; [discriminate|].
    remember (e0 :: es') as es eqn:Ees. clear Ees e0 es'.
    apply bind_ok in H. destruct H as (er & Her & H).
    apply bind_ok in H. destruct H as (nx & Hnx & H).
    destruct nx as [nx|]; [|discriminate]. cbn in H. injection H as <-.
    rewrite in_app_iff, (IH nx Hnx q).
    assert (A : In q er <-> exists e p, gives_derivative m ds x e /\ In p (e_indices e) /\
              error_equation tb x e p = Ok q).
    { unfold error_equations in Her. rewrite (collect_In _ _ _ _ _ q Her). split.
      - intros (e & ra & I & F & K). rewrite (at_points_In _ _ _ _ q F) in K.
        destruct K as (p & P & S). exists e, p.
        now rewrite <- (equation_functions_In m x ds es W He).
      - intros (e & p & G & P & S).
        apply (equation_functions_In m x ds es W He) in G.
        assert (U : exists ra, at_points e (error_equation tb x e) = Ok ra).
        { clear - Her G. revert er Her. induction es as [|a l IH]; intros r T; [destruct G|].
          cbn [collect] in T. apply bind_ok in T. destruct T as (r1 & F & T).
          apply bind_ok in T. destruct T as (r' & F' & _).
          destruct G as [-> | G]; eauto. }
        destruct U as (ra & U). exists e, ra. split; [exact G|]. split; [exact U|].
        rewrite (at_points_In _ _ _ _ q U). eauto. }
    rewrite A. split.
    + intros [(e & p & K) | (y & e & p & I & K)].
      * exists x, e, p. split; [now left|exact K].
      * exists y, e, p. split; [now right|exact K].
    + intros (y & e & p & [<- | I] & K).
      * left. eauto.
      * right. eauto.
Qed.

Lemma ordered_disjoint : forall l : list requation,
  (forall v e w e', In (v, e) l -> In (w, e') l -> ~ reads e w) -> ordered l.
Proof.
  induction l as [|[v e] l IH]; intros H; cbn [ordered]; [exact I|]. split.
  - intros w e' K. apply (H v e w e'); [now left|exact K].
  - apply IH. intros v1 e1 w e' I1 I2. apply (H v1 e1 w e'); now right.
Qed.

Lemma sum_framed : forall coef sl ix n i acc r, exp_framed acc ->
  sum_from coef sl ix i n acc = Ok r -> exp_framed r.
Proof.
  intros coef sl ix. induction n as [|n IH]; intros i acc r A E; cbn [sum_from] in E.
  - injection E as <-. exact A.
  - apply bind_ok in E. destruct E as (q & _ & E). destruct (is_zero q); [eauto|].
    apply bind_ok in E. destruct E as (k & _ & E). apply IH in E; [exact E|].
    cbn. auto.
Qed.

(** The values of the error variables. *)
Lemma error_values : forall m tb ds xs eqs t h clock mem, wf_model m -> wf_tableau tb ->
  error_system m tb ds xs = Ok (Some eqs) ->
  forall x e p, In x xs -> gives_derivative m ds x e -> In p (e_indices e) ->
  exec t h clock eqs mem (Err x, e_access e p) =
  (h * Rsum (t_rows tb) (fun j =>
     (Q2R (wts (method_of_tableau tb) j) - Q2R (embedded_weights tb j))
     * mem (Slope x (S j), e_access e p)))%R.
Proof.
  intros m tb ds xs eqs t h clock mem W Wt H x e p Ix G P.
  (* the value written by an equation of the error is the same for all those
     that write the variable *)
  assert (Lhs : forall v rhs, In (v, rhs) eqs -> exists y e1 p1,
            error_equation tb y e1 p1 = Ok (v, rhs) /\ v = (Err y, e_access e1 p1)).
  { intros v rhs I. apply (error_system_In m tb ds xs eqs W H) in I.
    destruct I as (y & e1 & p1 & _ & _ & _ & E). exists y, e1, p1. split; [exact E|].
    destruct (error_equation_ok tb y e1 p1 Wt) as (r & E' & _). congruence. }
  assert (Uni : forall v rhs rhs', In (v, rhs) eqs -> In (v, rhs') eqs -> rhs = rhs').
  { intros v rhs rhs' I I'. destruct (Lhs _ _ I) as (y & e1 & p1 & E & V).
    destruct (Lhs _ _ I') as (y' & e1' & p1' & E' & V').
    rewrite V in V'. injection V' as <- Ea.
    unfold error_equation in E, E'. rewrite <- Ea in E'.
    apply bind_ok in E. destruct E as (s & Es & E).
    apply bind_ok in E'. destruct E' as (s' & Es' & E').
    rewrite Es in Es'. injection Es' as <-. congruence. }
  destruct (error_equation_ok tb x e p Wt) as (rhs & E & V & _).
  assert (I : In ((Err x, e_access e p), rhs) eqs).
  { apply (error_system_In m tb ds xs eqs W H). exists x, e, p. auto. }
  assert (Reads : forall v r, In (v, r) eqs -> forall u, reads r u ->
                  exists y j q, u = (Slope y j, q)).
  { intros v r K u Hu. destruct (Lhs _ _ K) as (y & e1 & p1 & E1 & V1).
    destruct (error_equation_ok tb y e1 p1 Wt) as (r' & E1' & _ & Rd).
    assert (r' = r) as -> by congruence.
    destruct (Rd u Hu) as (j & _ & ->). eauto. }
  destruct (exec_solves t h clock eqs mem) as (hid & Sv & A).
  - apply ordered_disjoint. intros v r w r' K K' Hr.
    destruct (Reads v r K w Hr) as (y & j & q & ->).
    destruct (Lhs _ _ K') as (y' & e1 & p1 & _ & Ew). discriminate.
  - intros v r K. destruct (Lhs _ _ K) as (y & e1 & p1 & E1 & _).
    unfold error_equation in E1. apply bind_ok in E1. destruct E1 as (s & Es & E1).
    injection E1 as _ <-. cbn. split; [exact Logic.I|].
    apply sum_framed in Es; [exact Es|exact Logic.I].
  - exact Uni.
  - rewrite (Sv _ _ I), V. f_equal. apply Rsum_ext. intros j J. f_equal.
    apply exec_unwritten. intros r K. destruct (Lhs _ _ K) as (y & e1 & p1 & _ & Ew).
    discriminate.
Qed.

Lemma fold_max : forall l a,
  (a <= fold_left Rmax l a)%R /\
  (forall b, In b l -> b <= fold_left Rmax l a)%R /\
  (fold_left Rmax l a = a \/ In (fold_left Rmax l a) l).
Proof.
  induction l as [|b l IH]; intros a; cbn [fold_left].
  - split; [lra|]. split; [intros b []|now left].
  - destruct (IH (Rmax a b)) as (A & B & C). split; [|split].
    + pose proof (Rmax_l a b). lra.
    + intros c [<- | I]; [pose proof (Rmax_r a b); lra|now apply B].
    + destruct C as [C | C]; [|right; now right].
      rewrite C. unfold Rmax. destruct (Rle_dec a b); [right; now left|now left].
Qed.

Lemma max_list_ok : forall l,
  (forall b, In b l -> b <= max_list l)%R /\ (l = [] /\ max_list l = 0%R \/ In (max_list l) l).
Proof.
  intros [|a l]; cbn [max_list].
  - split; [intros b []|now left].
  - destruct (fold_max l a) as (A & B & C). split.
    + intros b [<- | I]; auto.
    + right. destruct C as [-> | C]; [now left|now right].
Qed.

Lemma max_error_ok : forall ls,
  (0 <= max_error ls)%R /\
  (forall l b, In l ls -> In b l -> b <= max_error ls)%R /\
  (max_error ls = 0%R \/ exists l, In l ls /\ In (max_error ls) l).
Proof.
  intros ls. unfold max_error.
  assert (G : forall a,
    (a <= fold_left (fun acc l => Rmax acc (max_list l)) ls a)%R /\
    (forall l b, In l ls -> In b l ->
       b <= fold_left (fun acc l => Rmax acc (max_list l)) ls a)%R /\
    (fold_left (fun acc l => Rmax acc (max_list l)) ls a = a \/
     fold_left (fun acc l => Rmax acc (max_list l)) ls a = 0%R \/
     exists l, In l ls /\ In (fold_left (fun acc l => Rmax acc (max_list l)) ls a) l)).
  { induction ls as [|l ls IH]; intros a; cbn [fold_left].
    - split; [lra|]. split; [intros l b []|now left].
    - destruct (IH (Rmax a (max_list l))) as (A & B & C).
      destruct (max_list_ok l) as (M1 & M2). split; [|split].
      + pose proof (Rmax_l a (max_list l)). lra.
      + intros l' b [<- | I] K; [|eauto]. pose proof (Rmax_r a (max_list l)).
        pose proof (M1 b K). lra.
      + destruct C as [C | [C | (l' & I & K)]].
        * rewrite C. unfold Rmax. destruct (Rle_dec a (max_list l)); [|now left].
          right. destruct M2 as [(_ & ->) | K]; [now left|].
          right. exists l. split; [now left|exact K].
        * right. now left.
        * right. right. exists l'. split; [now right|exact K]. }
  destruct (G 0%R) as (A & B & C). split; [exact A|]. split; [exact B|].
  destruct C as [C | [C | C]]; auto.
Qed.

Lemma indices_of_ok : forall m x ps, wf_model m -> In (x, ps) (m_vars m) ->
  indices_of m x = ps.
Proof.
  intros m x ps (N & _) I. unfold indices_of. revert N I.
  induction (m_vars m) as [|[y qs] l IH]; intros N I; [destruct I|].
  cbn in N. inversion N as [|? ? Nx N']; subst. cbn [find fst].
  destruct I as [E | I].
  - injection E as -> ->. now rewrite Nat.eqb_refl.
  - destruct (Nat.eqb_spec y x) as [-> | _]; [|now apply IH].
    destruct Nx. change x with (fst (x, ps)). now apply in_map.
Qed.

Lemma estimate_ok : forall m tb sccs t h clock mem r, wf_model m -> wf_tableau tb ->
  is_adaptive tb = true ->
  (forall x ps p, In x (map fst (m_ders m)) -> In (x, ps) (m_vars m) -> In p ps ->
     integrated m sccs (x, p)) ->
  estimate_error m tb sccs t h clock mem = Ok (Some r) ->
  let err := fun x p => (h * Rsum (t_rows tb) (fun j =>
     (Q2R (wts (method_of_tableau tb) j) - Q2R (embedded_weights tb j))
     * mem (Slope x (S j), p)))%R in
  (0 <= r)%R /\
  (forall x ps p, In x (map fst (m_ders m)) -> In (x, ps) (m_vars m) -> In p ps ->
     (err x p <= r)%R) /\
  (r = 0%R \/ exists x ps p, In x (map fst (m_ders m)) /\ In (x, ps) (m_vars m) /\
     In p ps /\ r = err x p).
Proof.
  intros m tb sccs t h clock mem r W Wt Ad Int H err.
  unfold estimate_error in H. rewrite Ad in H. cbn [negb] in H.
  destruct (der_matched m sccs) as [ds|] eqn:D; [|discriminate].
  apply bind_ok in H. destruct H as (o & Ho & H).
  destruct o as [eqs|]; [|discriminate]. cbn in H. injection H as H.
  destruct (max_error_ok (map (fun x => map (fun p => exec t h clock eqs mem (Err x, p))
              (indices_of m x)) (states m))) as (A & B & C).
  assert (Val : forall x ps p, In x (map fst (m_ders m)) -> In (x, ps) (m_vars m) ->
            In p ps -> exec t h clock eqs mem (Err x, p) = err x p).
  { intros x ps p Ix Iv Ip. destruct (Int x ps p Ix Iv Ip) as (e & p' & G & P & E).
    cbn [fst snd] in *. subst p.
    apply (error_values m tb ds (states m) eqs t h clock mem W Wt Ho x e p').
    - now apply states_iff.
    - now apply (gives_derivative_ds m sccs ds x e W D).
    - exact P. }
  rewrite H in A, B, C. split; [exact A|]. split.
  - intros x ps p Ix Iv Ip. rewrite <- (Val x ps p Ix Iv Ip).
    apply (B (map (fun p => exec t h clock eqs mem (Err x, p)) (indices_of m x))).
    + apply (in_map (fun x => map (fun p => exec t h clock eqs mem (Err x, p)) (indices_of m x))).
      now apply states_iff.
    + rewrite (indices_of_ok m x ps W Iv).
      now apply (in_map (fun p => exec t h clock eqs mem (Err x, p))).
  - destruct C as [C | (l & Il & Ir)]; [now left|]. right.
    apply in_map_iff in Il. destruct Il as (x & <- & Ix).
    apply in_map_iff in Ir. destruct Ir as (p & <- & Ip).
    apply states_iff in Ix; auto.
    assert (exists ps, In (x, ps) (m_vars m)) as (ps & Iv).
    { pose proof Ix as K. apply in_map_iff in K. destruct K as ([y d] & <- & K).
      apply W in K. destruct K as (K & _). apply in_map_iff in K.
      destruct K as ([z ps] & E & K). cbn in *. subst z. eauto. }
    rewrite (indices_of_ok m x ps W Iv) in Ip.
    exists x, ps, p. repeat split; auto. now apply (Val x ps p).
Qed.

(** ** The acceptance of a step *)

Lemma accept_In : forall m v p e, In ((v, p), e) (accept_equations m) <->
  exists x ps, In (x, ps) (m_vars m) /\ has_future m x = true /\ In p ps /\
    v = Cur x /\ e = EGet (Fut x, p).
Proof.
  intros m v p e. unfold accept_equations. rewrite in_flat_map. split.
  - intros ([x ps] & I & K). cbn [fst snd] in K.
    destruct (has_future m x) eqn:U; [|destruct K].
    apply in_map_iff in K. destruct K as (q & E & Iq). injection E as <- <- <-.
    exists x, ps. auto.
  - intros (x & ps & I & U & Ip & -> & ->). exists (x, ps). split; [exact I|].
    cbn [fst snd]. rewrite U. apply in_map_iff. eauto.
Qed.

Lemma accept_ok : forall m t h clock mem,
  (forall x ps p, In (x, ps) (m_vars m) -> has_future m x = true -> In p ps ->
     exec t h clock (accept_equations m) mem (Cur x, p) = mem (Fut x, p)) /\
  (forall w, (forall x ps p, In (x, ps) (m_vars m) -> has_future m x = true -> In p ps ->
     w <> (Cur x, p)) -> exec t h clock (accept_equations m) mem w = mem w).
Proof.
  intros m t h clock mem.
  assert (Un : forall w, (forall x ps p, In (x, ps) (m_vars m) -> has_future m x = true ->
    In p ps -> w <> (Cur x, p)) -> forall e, ~ In (w, e) (accept_equations m)).
  { intros [v p] N e I. apply accept_In in I.
    destruct I as (x & ps & Iv & U & Ip & -> & _). exact (N x ps p Iv U Ip eq_refl). }
  destruct (exec_solves t h clock (accept_equations m) mem) as (hid & Sv & A).
  - apply ordered_disjoint. intros [v p] e [w q] e' I I' Rd.
    apply accept_In in I, I'.
    destruct I as (x & ps & _ & _ & _ & _ & ->). destruct I' as (x' & ps' & _ & _ & _ & -> & _).
    cbn in Rd. discriminate.
  - intros [v p] e I. apply accept_In in I.
    destruct I as (x & ps & _ & _ & _ & _ & ->). exact Logic.I.
  - intros [v p] e e' I I'. apply accept_In in I, I'.
    destruct I as (x & ps & _ & _ & _ & -> & ->). destruct I' as (x' & ps' & _ & _ & _ & E & ->).
    congruence.
  - split.
    + intros x ps p Iv U Ip.
      assert (I : In ((Cur x, p), EGet (Fut x, p)) (accept_equations m)).
      { apply accept_In. exists x, ps. auto. }
      rewrite (Sv _ _ I). cbn [eval]. apply exec_unwritten. apply Un. discriminate.
    + intros w N. now apply exec_unwritten, Un.
Qed.

(** ** The other variables *)

Lemma der_matched_nonempty : forall m sccs x e, wf_model m ->
  gives_derivative m sccs x e -> der_matched m sccs <> Some [].
Proof.
  intros m sccs x e W G D.
  apply (gives_derivative_ds m sccs [] x e W D) in G. destruct G as (s & [] & _).
Qed.

(** ** The time in the copied equations *)

Definition has_self_use (l : list op) : Prop :=
  exists o, In o l /\ In (o_def o) (o_operands o).

Lemma fold_max_le : forall l n, n <= fold_right Nat.max n l.
Proof. induction l as [|a l IH]; intros n; cbn; [lia|]. specialize (IH n). lia. Qed.

Lemma fresh_above : forall l o, In o l -> o_def o < fresh_value l.
Proof.
  intros l o I. unfold fresh_value. apply Nat.lt_succ_r.
  induction l as [|a l IH]; [destruct I|]. cbn [fold_right].
  set (n := fold_right _ 0 l) in *.
  pose proof (fold_max_le (o_operands a) (Nat.max (o_def a) n)).
  destruct I as [-> | I]; [lia|]. specialize (IH I). lia.
Qed.

Lemma insert_before_In : forall a new l o, In o l -> In o (insert_before a new l).
Proof.
  intros a new. induction l as [|b l IH]; intros o I; [destruct I|]. cbn [insert_before].
  destruct (Nat.eqb (o_def b) a).
  - apply in_or_app. now right.
  - destruct I as [-> | I]; [now left|right; now apply IH].
Qed.

Lemma insert_before_new : forall a new l o, In o new -> (exists b, In b l /\ o_def b = a) ->
  In o (insert_before a new l).
Proof.
  intros a new. induction l as [|b l IH]; intros o I (c & J & E); [destruct J|].
  cbn [insert_before]. destruct (Nat.eqb_spec (o_def b) a) as [_ | N].
  - apply in_or_app. now left.
  - right. apply IH; [exact I|]. destruct J as [-> | J]; [contradiction|eauto].
Qed.

Lemma rewrite_time_self : forall l a, (exists b, In b l /\ o_def b = a) ->
  has_self_use (rewrite_time l a).
Proof.
  intros l a H. unfold rewrite_time. set (v := fresh_value l).
  set (new := [_; _; _]).
  exists (mk_op (S (S v)) OAdd [S (S v); S v]). split; [|now left].
  unfold replace_uses.
  apply in_map_iff. exists (mk_op (S (S v)) OAdd [a; S v]). split.
  - cbn [o_def o_kind o_operands map]. rewrite Nat.eqb_refl.
    destruct (Nat.eqb_spec (S v) a) as [E | _]; [|reflexivity].
    destruct H as (b & I & Eb). pose proof (fresh_above l b I). unfold v in E. lia.
  - apply insert_before_new; [right; right; now left|exact H].
Qed.

Lemma rewrite_time_keeps_self : forall l a, has_self_use l ->
  (forall o, In o l -> In (o_def o) (o_operands o) -> o_def o <> a) ->
  has_self_use (rewrite_time l a).
Proof.
  intros l a (o & I & Us) N. unfold rewrite_time. set (v := fresh_value l).
  set (new := [_; _; _]).
  exists (mk_op (o_def o) (o_kind o)
            (map (fun u => if Nat.eqb u a then S (S v) else u) (o_operands o))).
  split.
  - unfold replace_uses. apply in_map_iff. exists o. split; [reflexivity|].
    now apply insert_before_In.
  - cbn [o_def o_operands]. apply in_map_iff. exists (o_def o). split; [|exact Us].
    destruct (Nat.eqb_spec (o_def o) a) as [E | _]; [|reflexivity].
    destruct (N o I Us E).
Qed.

Lemma rewrite_time_defs : forall l a o, In o l ->
  exists o', In o' (rewrite_time l a) /\ o_def o' = o_def o.
Proof.
  intros l a o I. unfold rewrite_time, replace_uses.
  eexists. split; [apply in_map, insert_before_In; exact I|]. reflexivity.
Qed.

(** An operation that uses itself after the rewriting of [a] did so before, or
    is the new one. *)
Lemma insert_before_inv : forall a new l o, In o (insert_before a new l) ->
  In o new \/ In o l.
Proof.
  intros a new. induction l as [|b l IH]; intros o I; [destruct I|].
  cbn [insert_before] in I. destruct (Nat.eqb (o_def b) a).
  - apply in_app_or in I. destruct I as [I | I]; auto.
  - destruct I as [-> | I]; [right; now left|]. destruct (IH o I); auto. right. now right.
Qed.

Lemma rewrite_time_self_inv : forall l a o, In o (rewrite_time l a) ->
  In (o_def o) (o_operands o) ->
  o_def o = S (S (fresh_value l)) \/
  exists o', In o' l /\ o_def o' = o_def o /\ In (o_def o') (o_operands o').
Proof.
  intros l a o I U. unfold rewrite_time in I. set (v := fresh_value l) in *.
  unfold replace_uses in I. apply in_map_iff in I. destruct I as (o0 & <- & I).
  cbn [o_def o_operands] in *.
  apply insert_before_inv in I. destruct I as [I | I].
  - destruct I as [<- | [<- | [<- | []]]]; cbn [o_def o_operands map] in *.
    + destruct U.
    + destruct U as [U | []]. destruct (Nat.eqb v a); [lia|]. lia.
    + now left.
  - right. exists o0. split; [exact I|]. split; [reflexivity|].
    apply in_map_iff in U. destruct U as (u & E & Iu).
    destruct (Nat.eqb u a); [|now subst].
    pose proof (fresh_above l o0 I). unfold v in E. lia.
Qed.

Lemma rewrite_times_self : forall as_ l,
  (forall a, In a as_ -> exists b, In b l /\ o_def b = a) ->
  (forall o, In o l -> In (o_def o) (o_operands o) -> ~ In (o_def o) as_) ->
  (as_ <> [] \/ has_self_use l) ->
  has_self_use (fold_left rewrite_time as_ l).
Proof.
  induction as_ as [|a as_ IH]; intros l D N H; cbn [fold_left].
  - destruct H as [H | H]; [congruence|exact H].
  - apply IH.
    + intros b I. destruct (D b (or_intror I)) as (o & Io & E).
      destruct (rewrite_time_defs l a o Io) as (o' & I' & E'). exists o'. split; [exact I'|].
      congruence.
    + intros o I U K.
      destruct (rewrite_time_self_inv l a o I U) as [E | (o' & I' & E & U')].
      * destruct (D (o_def o) (or_intror K)) as (o2 & I2 & E2).
        pose proof (fresh_above l o2 I2). lia.
      * apply (N o' I' U'). rewrite E. now right.
    + right. apply rewrite_time_self. apply D. now left.
Qed.

Lemma rewrite_times_no_time : forall l,
  (forall o, In o l -> o_kind o <> OTime) -> rewrite_times l = l.
Proof.
  intros l H. unfold rewrite_times.
  assert (E : filter (fun o => match o_kind o with OTime => true | _ => false end) l = []).
  { induction l as [|o l IH]; [reflexivity|]. cbn [filter].
    assert (K : o_kind o <> OTime) by (apply H; now left).
    rewrite IH by (intros; apply H; now right). now destruct (o_kind o). }
  rewrite E. reflexivity.
Qed.

(** ** Forward Euler *)

Lemma set_value_same : forall vals x p r, set_value vals x p r x p = r.
Proof. intros. unfold set_value. now rewrite Nat.eqb_refl, point_eqb_refl. Qed.

Lemma set_value_other : forall vals x p r y q, y <> x \/ q <> p ->
  set_value vals x p r y q = vals y q.
Proof.
  intros vals x p r y q H. unfold set_value.
  destruct (Nat.eqb_spec y x) as [-> | _]; [|reflexivity].
  destruct (point_eqb q p) eqn:E; [|reflexivity].
  apply point_eqb_true in E. destruct H; contradiction.
Qed.

Lemma ranged_loop : forall h x d ps vals, x <> d -> NoDup ps ->
  let vals' := fold_left (fun vals p =>
    set_value vals x p (vals x p + vals d p * h)%R) ps vals in
  (forall p, In p ps -> vals' x p = (vals x p + vals d p * h)%R) /\
  (forall y q, y <> x \/ ~ In q ps -> vals' y q = vals y q).
Proof.
  intros h x d. induction ps as [|p ps IH]; intros vals N Nd; cbn [fold_left].
  - split; [intros p []|reflexivity].
  - inversion Nd as [|? ? Np Nd']; subst.
    destruct (IH (set_value vals x p (vals x p + vals d p * h)%R) N Nd') as (A & B).
    split.
    + intros q [<- | I].
      * rewrite B by now right. apply set_value_same.
      * rewrite (A q I). assert (q <> p) by (intros ->; contradiction).
        rewrite !set_value_other by auto. reflexivity.
    + intros y q H. rewrite B.
      * apply set_value_other. destruct H as [H | H]; [now left|right].
        intros ->. apply H. now left.
      * destruct H as [H | H]; [now left|right]. intros K. apply H. now right.
Qed.

Lemma update_one : forall (ranged : bool) h m vals x d, x <> d -> NoDup (indices_of m x) ->
  let vals' := (if ranged then update_ranged h m else update_monolithic h m) vals (x, d) in
  (forall p, In p (indices_of m x) -> vals' x p = (vals x p + h * vals d p)%R) /\
  (forall y q, y <> x \/ ~ In q (indices_of m x) -> vals' y q = vals y q).
Proof.
  intros [|] h m vals x d N Nd.
  - destruct (ranged_loop h x d (indices_of m x) vals N Nd) as (A & B). split.
    + intros p I. cbn [fst snd]. unfold update_ranged. cbn [fst snd]. rewrite (A p I). lra.
    + exact B.
  - unfold update_monolithic. cbn [fst snd]. split.
    + intros p I. rewrite Nat.eqb_refl. cbn [andb].
      assert (E : existsb (point_eqb p) (indices_of m x) = true).
      { apply existsb_exists. exists p. split; [exact I|apply point_eqb_refl]. }
      now rewrite E.
    + intros y q H. destruct (Nat.eqb_spec y x) as [-> | _]; [|reflexivity]. cbn [andb].
      destruct (existsb (point_eqb q) (indices_of m x)) eqn:E; [|reflexivity].
      apply existsb_exists in E. destruct E as (p & I & E). apply point_eqb_true in E.
      subst p. destruct H; contradiction.
Qed.

Lemma state_pairs_In : forall m x d, wf_model m ->
  (In (x, d) (state_pairs m) <-> In (x, d) (m_ders m)).
Proof.
  intros m x d W. unfold state_pairs. rewrite in_flat_map. split.
  - intros ([y ps] & I & K). cbn [fst] in K.
    destruct (derivative m y) as [d'|] eqn:D; [|destruct K].
    destruct K as [E | []]. injection E as <- <-. now apply derivative_iff.
  - intros I. pose proof I as K. apply W in K. destruct K as (K & _).
    apply in_map_iff in K. destruct K as ([y ps] & E & K). cbn in E. subst y.
    exists (x, ps). split; [exact K|]. cbn [fst]. apply derivative_iff in I; auto.
    rewrite I. now left.
Qed.

Lemma state_pairs_NoDup : forall m, wf_model m -> NoDup (map fst (state_pairs m)).
Proof.
  intros m (N & _). unfold state_pairs. induction (m_vars m) as [|[x ps] l IH]; [constructor|].
  cbn [map fst] in N. inversion N as [|? ? Nx N']; subst. cbn [flat_map fst].
  destruct (derivative m x) as [d|]; cbn [app]; [|now apply IH].
  cbn [map fst]. constructor; [|now apply IH].
  intros K. apply in_map_iff in K. destruct K as ([y d'] & E & K). cbn in E. subst y.
  apply in_flat_map in K. destruct K as ([z qs] & I & K). cbn [fst] in K.
  destruct (derivative m z); [|destruct K]. destruct K as [E | []]. injection E as -> _.
  apply Nx. change x with (fst (x, qs)). now apply in_map.
Qed.

Lemma update_fold : forall (ranged : bool) h m l vals,
  NoDup (map fst l) ->
  (forall x d x', In (x, d) l -> In x' (map fst l) -> d <> x') ->
  (forall x, In x (map fst l) -> NoDup (indices_of m x)) ->
  let vals' := fold_left (if ranged then update_ranged h m else update_monolithic h m) l vals in
  (forall x d p, In (x, d) l -> In p (indices_of m x) ->
     vals' x p = (vals x p + h * vals d p)%R) /\
  (forall y q, ~ In y (map fst l) \/ ~ In q (indices_of m y) -> vals' y q = vals y q).
Proof.
  intros ranged h m. induction l as [|[x d] l IH]; intros vals Nd C Ni; cbn [fold_left].
  - split; [intros x d p []|reflexivity].
  - cbn [map fst] in Nd. inversion Nd as [|? ? Nx Nd']; subst.
    set (step := if ranged then update_ranged h m else update_monolithic h m) in *.
    assert (Nxd : x <> d).
    { intros ->. apply (C d d d); [now left|now left|reflexivity]. }
    destruct (update_one ranged h m vals x d Nxd) as (A & B).
    { apply Ni. now left. }
    fold step in A, B.
    destruct (IH (step vals (x, d)) Nd') as (A' & B').
    { intros y e y' I I'. apply (C y e y'); [now right|now right]. }
    { intros y I. apply Ni. now right. }
    split.
    + intros y e p [E | I] Ip.
      * injection E as <- <-. rewrite B' by now left. now apply A.
      * rewrite (A' y e p I Ip).
        assert (y <> x).
        { intros ->. apply Nx. change x with (fst (x, e)). now apply in_map. }
        assert (e <> x) by (apply (C y e x); [now right|now left]).
        rewrite !B by now left. reflexivity.
    + intros y q H. rewrite B'.
      * apply B. destruct (Nat.eq_dec y x) as [-> | N]; [|now left]. right.
        destruct H as [H | H]; [destruct H; now left|exact H].
      * destruct H as [H | H]; [left|now right]. intros K. apply H. now right.
Qed.
