(** Proofs about the promotion of variables to parameters. *)
From Coq Require Import ZArith List Bool Arith Lia.
From Verif Require Import RangeModel MDRangeModel BoxSetModel Spec BoxSetProofs WritesMapModel WritesMapProofs PromoteModel PromoteSpec.
Import ListNotations.
Local Open Scope nat_scope.

Lemma memb_in : forall x l, memb x l = true <-> In x l.
Proof.
  intros. unfold memb. rewrite existsb_exists. split.
  - intros (y & Hy & E). apply Nat.eqb_eq in E. now subst.
  - intros H. exists x. split; [assumption|apply Nat.eqb_refl].
Qed.
Lemma combine_seq_in : forall {A} (l : list A) s k a, In (k, a) (combine (seq s (length l)) l) <-> s <= k /\ nth_error l (k - s) = Some a.
Proof.
  induction l as [|b l IH]; intros s k a; cbn.
  - split; [intros []|]. intros (_ & H). destruct (k - s); discriminate.
  - rewrite IH. split.
    + intros [E|(L & E)].
      * injection E as <- <-. rewrite Nat.sub_diag. auto.
      * split; [lia|]. replace (k - s) with (S (k - S s)) by lia. exact E.
    + intros (L & E). destruct (Nat.eq_dec s k) as [->|N].
      * rewrite Nat.sub_diag in E. cbn in E. injection E as <-. now left.
      * right. split; [lia|]. replace (k - s) with (S (k - S s)) in E by lia. exact E.
Qed.
Lemma nth_eq_of : forall {A} (l : list A) s q, In q (flat_map (fun k => match nth_error l k with Some q => [q] | None => [] end) s) <->
  exists k, In k s /\ nth_error l k = Some q.
Proof.
  intros A l s q. rewrite in_flat_map. split; intros (k & Hk & H); exists k; (split; [exact Hk|]).
  - destruct (nth_error l k); [|destruct H]. destruct H as [->|[]]. reflexivity.
  - rewrite H. now left.
Qed.

Section Promote.
Context {K : Type}.

Fixpoint vsize (e : vexpr K) : nat :=
  match e with
  | VOp _ args => S ((fix sum l := match l with [] => 0 | a :: l' => vsize a + sum l' end) args)
  | _ => 1
  end.
Lemma vsize_arg : forall o args a, In a args -> vsize a < vsize (VOp o args).
Proof.
  intros o args a H. cbn [vsize].
  enough (vsize a <= (fix sum l := match l with [] => 0 | a :: l' => vsize a + sum l' end) args) by lia.
  induction args as [|b l IH]; [destruct H|]. destruct H as [->|H]; [lia|]. specialize (IH H). lia.
Qed.
Lemma vexpr_size_ind : forall P : vexpr K -> Prop, P VTime -> (forall k, P (VLeaf k)) -> (forall a, P (VRead a)) ->
  (forall o args, (forall a, In a args -> P a) -> P (VOp o args)) -> forall e, P e.
Proof.
  intros P H1 H2 H3 H4. assert (G : forall n e, vsize e < n -> P e).
  { induction n as [|n IH]; intros e L; [lia|]. destruct e as [|k|a|o args]; auto.
    apply H4. intros a Ha. apply IH. pose proof (vsize_arg o args a Ha). lia. }
  intros e. exact (G (S (vsize e)) e (Nat.lt_succ_diag_r _)).
Qed.
Lemma vaccesses_occurs : forall (e : vexpr K) a, In a (vaccesses e) <-> occurs e a.
Proof.
  intros e. induction e as [|k|b|o args IH] using vexpr_size_ind; intros a.
  - split; [intros []|intros H; inversion H].
  - split; [intros []|intros H; inversion H].
  - split; [intros [->|[]]; constructor|]. intros H. inversion H. now left.
  - assert (A : In a (vaccesses (VOp o args)) <-> exists e, In e args /\ In a (vaccesses e)).
    { cbn [vaccesses]. clear IH. induction args as [|b l IHl]; [split; [intros []|intros (e & [] & _)]|].
      rewrite in_app_iff, IHl. split.
      - intros [H|(e & H & E)]; [exists b; split; [now left|exact H]|exists e; split; [now right|exact E]].
      - intros (e & [->|H] & E); [now left|right; now exists e]. }
    rewrite A. split.
    + intros (e & He & H). apply occurs_arg with e; [exact He|]. now apply IH.
    + intros H. inversion H as [|o' args' e a' He Ho]; subst. exists e. split; [exact He|]. now apply IH.
Qed.
Lemma eq_accesses : forall (q : veq K) a, In a (vaccesses (ve_left q) ++ vaccesses (ve_right q)) <-> has_access q a.
Proof. intros. unfold has_access. now rewrite in_app_iff, !vaccesses_occurs. Qed.

Section Values.
Variables (T V : Type) (clock : T -> V) (leaf : K -> point -> V) (op : nat -> list V -> V) (t0 : T).
Notation value := (value V leaf op).
Notation holds := (holds V leaf op).
Lemma value_agree : forall c c' x y p (e : vexpr K), uses_time e = false ->
  (forall a, occurs e a -> x (a_var a) (a_sub a p) = y (a_var a) (a_sub a p)) -> value c x p e = value c' y p e.
Proof.
  intros c c' x y p e. induction e as [|k|b|o args IH] using vexpr_size_ind; intros U H; cbn.
  - discriminate.
  - reflexivity.
  - apply H. constructor.
  - f_equal. apply map_ext_in. intros e He. apply IH; [exact He| |].
    + cbn [uses_time] in U. clear - U He. induction args as [|b l IHl]; [destruct He|]. apply orb_false_iff in U as (U & Ul).
      destruct He as [->|He]; [exact U|exact (IHl Ul He)].
    + intros a Ha. apply H. exact (occurs_arg o args e a He Ha).
Qed.
Lemma holds_agree : forall c c' x y (q : veq K), uses_time (ve_left q) || uses_time (ve_right q) = false ->
  (forall w i, reads_element q w i -> x w i = y w i) -> holds c x q -> holds c' y q.
Proof.
  intros c c' x y q U A H p Hp. apply orb_false_iff in U as (U1 & U2).
  rewrite <- (value_agree c c' x y p (ve_left q) U1), <- (value_agree c c' x y p (ve_right q) U2); [exact (H p Hp)| |];
    intros a Ha; apply A; exists a, p; unfold has_access; auto.
Qed.

Variables (m : vmodel K) (sccs : list (list nat)).
Hypothesis W : well_formed m.
Hypothesis whole : whole_accesses m.

Lemma dims_unique : forall v d d', In (v, d) (vm_vars m) -> In (v, d') (vm_vars m) -> d = d'.
Proof.
  intros v d d' H H'. pose proof (wf_names m W) as N. revert H H' N. generalize (vm_vars m). clear.
  induction l as [|[a b] l IH]; intros H H' N; [destruct H|]. cbn in N. apply NoDup_cons_iff in N as (Na & N).
  destruct H as [H|H], H' as [H'|H'].
  - congruence.
  - injection H as -> ->. apply (in_map fst) in H'. contradiction.
  - injection H' as -> ->. apply (in_map fst) in H. contradiction.
  - now apply IH.
Qed.

(** ** The writes map *)
Definition hist (eqs : list (veq K)) := map (fun x => (ve_match (snd x), ve_indices (snd x), fst x)) (combine (seq 0 (length eqs)) eqs).
Lemma hist_in : forall eqs v s k, In (v, s, k) (hist eqs) <-> exists q, nth_error eqs k = Some q /\ v = ve_match q /\ s = ve_indices q.
Proof.
  intros eqs v s k. unfold hist. rewrite in_map_iff. split.
  - intros ([j q] & E & H). cbn in E. injection E as <- <- <-. apply combine_seq_in in H as (_ & H). rewrite Nat.sub_0_r in H. eauto.
  - intros (q & H & -> & ->). exists (k, q). split; [reflexivity|]. apply combine_seq_in. rewrite Nat.sub_0_r. split; [lia|exact H].
Qed.
Lemma main_write : forall k q, nth_error (vm_main m) k = Some q ->
  exists dims, In (ve_match q, dims) (vm_vars m) /\ reached_by (ve_points q) (ve_write q) dims (ve_indices q).
Proof. intros k q H. apply (wf_write m W). right. exact (nth_error_In _ _ H). Qed.
Lemma solved_indices : forall k q dims i, nth_error (vm_main m) k = Some q -> In (ve_match q, dims) (vm_vars m) -> dims <> [] ->
  (in_boxes i (ve_indices q) <-> solved_for q (ve_match q) i).
Proof.
  intros k q dims i H Hd N. destruct (main_write k q H) as (d & Hd' & R). rewrite (dims_unique _ _ _ Hd' Hd) in R.
  destruct dims as [|b dims]; [easy|]. destruct R as (_ & _ & R & _). rewrite R. unfold solved_for. split; [intros (p & Hp); eauto|].
  intros (_ & p & Hp). eauto.
Qed.
Lemma box_rank : forall rk rk' b, box_of rk b -> box_of rk' b -> rk = rk'.
Proof. intros rk rk' b (_ & H) (_ & H'). congruence. Qed.
Lemma writers : forall v dims s rk k, In (v, dims) (vm_vars m) -> dims <> [] -> bs_of rk s -> bs_of rk dims -> s <> [] ->
  In k (map fst (wm_getWrites (writes_map (vm_main m)) v s)) <->
  exists q i, nth_error (vm_main m) k = Some q /\ solved_for q v i /\ in_boxes i s.
Proof.
  intros v dims s rk k Hd N Bs Bd Ns. unfold writes_map. fold (hist (vm_main m)).
  destruct (writes_array (hist (vm_main m)) v rk s) as (_ & Hw & _); [|exact Bs|exact Ns|].
  - intros s' e H. apply hist_in in H as (q & Hq & -> & ->). destruct (main_write e q Hq) as (d & Hd' & R).
    rewrite (dims_unique _ _ _ Hd' Hd) in R. destruct dims as [|b dims]; [easy|]. destruct R as (_ & (rk' & B & B') & _).
    inversion Bd; inversion B'; subst. now rewrite (box_rank rk rk' b).
  - rewrite Hw. split.
    + intros (s' & i & H & Hi & Hs). apply hist_in in H as (q & Hq & -> & ->). exists q, i. split; [exact Hq|]. split; [|exact Hs].
      now apply (solved_indices k q dims i Hq Hd N).
    + intros (q & i & Hq & Hi & Hs). destruct Hi as (-> & Hi). exists (ve_indices q), i. split; [apply hist_in; eauto|].
      split; [|exact Hs]. apply (solved_indices k q dims i Hq Hd N). split; [reflexivity|exact Hi].
Qed.
Lemma writers_scalar : forall v k, In (v, []) (vm_vars m) -> In k (map fst (wm_getWrites (writes_map (vm_main m)) v [])) ->
  exists q, nth_error (vm_main m) k = Some q /\ solved_for q v [].
Proof.
  intros v k Hd H. apply writes_scalar_in in H. apply hist_in in H as (q & Hq & -> & _). exists q. split; [exact Hq|].
  destruct (main_write k q Hq) as (d & Hd' & R). rewrite (dims_unique _ _ _ Hd' Hd) in R. destruct R as (_ & R).
  split; [reflexivity|]. pose proof (wf_points m W q (or_intror (nth_error_In _ _ Hq))) as Np.
  destruct (ve_points q) as [|p ps]; [easy|]. exists p. split; [now left|]. symmetry. apply R. now left.
Qed.

(** ** The promotable equations *)
Lemma access_cases : forall promoted scc k q a p, nth_error (vm_main m) k = Some q -> has_access q a -> In p (ve_points q) ->
  access_promotable m promoted scc a = true ->
  In (a_var a) (vm_readonly m) \/
  exists k' q', (In k' promoted \/ In k' scc) /\ nth_error (vm_main m) k' = Some q' /\ solved_for q' (a_var a) (a_sub a p).
Proof.
  intros promoted scc k q a p Hq Ha Hp H. unfold access_promotable in H.
  destruct (memb (a_var a) (vm_readonly m)) eqn:M; [left; now apply memb_in|right].
  destruct (wm_getWrites _ _ _) as [|e ws] eqn:E; [discriminate|].
  assert (F : forall k', In k' (map fst (e :: ws)) -> In k' promoted \/ In k' scc).
  { intros k' Hk. apply in_map_iff in Hk as (w & <- & Hw). pose proof (proj1 (forallb_forall _ _) H w Hw) as B. apply orb_true_iff in B as [B|B]; apply memb_in in B; auto. }
  clear H. pose proof (nth_error_In _ _ Hq) as Hin. destruct (wf_read m W q a Hin Ha) as (dims & Hd & R). destruct dims as [|b dims].
  - destruct R as (Er & R). rewrite Er in E. rewrite (R p Hp).
    destruct (writers_scalar (a_var a) (fst e) Hd) as (q' & Hq' & Hs); [rewrite E; now left|].
    exists (fst e), q'. split; [apply F; now left|now split].
  - destruct R as (Nr & (rk & Bs & Bd) & R & _). assert (Nd : b :: dims <> []) by discriminate.
    pose proof (fun k => writers (a_var a) (b :: dims) (a_read a) rk k Hd Nd Bs Bd Nr) as Hw. rewrite E in Hw.
    destruct (proj1 (Hw (fst e)) (or_introl eq_refl)) as (q1 & i1 & Hq1 & Hs1 & Hi1).
    destruct (whole q a Hin Ha) with (p := p) as (q2 & Hq2 & Hs2); [|exact Hp|].
    { exists q1, i1. split; [exact (nth_error_In _ _ Hq1)|]. split; [exact Hs1|]. now apply R. }
    apply In_nth_error in Hq2 as (k2 & Hk2). exists k2, q2. split; [|now split]. apply F, Hw. exists q2, (a_sub a p).
    split; [exact Hk2|]. split; [exact Hs2|]. apply R. eauto.
Qed.

Lemma scc_equation : forall promoted scc k, scc_promotable m promoted scc = true -> In k scc ->
  exists q, nth_error (vm_main m) k = Some q /\ equation_promotable m promoted scc q = true.
Proof.
  intros promoted scc k H Hk. pose proof (proj1 (forallb_forall _ _) H k Hk) as B. cbn in B.
  destruct (nth_error (vm_main m) k) as [q|]; [|discriminate]. eauto.
Qed.
Lemma equation_parts : forall promoted scc q, equation_promotable m promoted scc q = true ->
  uses_time (ve_left q) || uses_time (ve_right q) = false /\ forall a, has_access q a -> access_promotable m promoted scc a = true.
Proof.
  intros promoted scc q H. unfold equation_promotable in H. apply andb_true_iff in H as (H & A). apply andb_true_iff in H as (H & _).
  apply negb_true_iff in H. split; [exact H|]. intros a Ha. apply eq_accesses in Ha. exact (proj1 (forallb_forall _ _) A a Ha).
Qed.
Lemma read_element_of : forall k q a p, nth_error (vm_main m) k = Some q -> has_access q a -> In p (ve_points q) ->
  exists dims, In (a_var a, dims) (vm_vars m) /\ element dims (a_sub a p).
Proof.
  intros k q a p Hq Ha Hp. destruct (wf_read m W q a (nth_error_In _ _ Hq) Ha) as (dims & Hd & R). exists dims. split; [exact Hd|].
  destruct dims as [|b dims]; [apply R, Hp|]. destruct R as (_ & _ & R & R'). apply R', R. eauto.
Qed.

Definition constant (x : T -> nat -> point -> V) (l : list nat) : Prop :=
  forall k q w i t t', In k l -> nth_error (vm_main m) k = Some q -> solved_for q w i -> x t w i = x t' w i.

Lemma scc_constant : forall x promoted scc, In scc sccs -> sccs_determine V leaf op m sccs -> solution T V clock leaf op t0 m x ->
  constant x promoted -> scc_promotable m promoted scc = true -> constant x (promoted ++ scc).
Proof.
  intros x promoted scc Hs D [Sr _ Sm] C H k q w i t t' Hk Hq Hi. apply in_app_iff in Hk as [Hk|Hk]; [exact (C k q w i t t' Hk Hq Hi)|].
  apply (D scc Hs (clock t) (x t) (x t')) with (q := q); [| | |apply nth_eq_of; eauto|exact Hi].
  - intros q1 H1. apply nth_eq_of in H1 as (k1 & _ & H1). apply Sm. exact (nth_error_In _ _ H1).
  - intros q1 H1. apply nth_eq_of in H1 as (k1 & Hk1 & H1). destruct (scc_equation promoted scc k1 H Hk1) as (q2 & H2 & P).
    assert (q2 = q1) by congruence. subst q2. destruct (equation_parts promoted scc q1 P) as (U & _).
    apply (holds_agree (clock t') (clock t) (x t') (x t') q1 U); [reflexivity|]. apply Sm. exact (nth_error_In _ _ H1).
  - intros q1 w1 i1 H1 (a & p & Ha & Hp & -> & ->). apply nth_eq_of in H1 as (k1 & Hk1 & H1).
    destruct (scc_equation promoted scc k1 H Hk1) as (q2 & H2 & P). assert (q2 = q1) by congruence. subst q2.
    destruct (equation_parts promoted scc q1 P) as (_ & A). specialize (A a Ha).
    destruct (access_cases promoted scc k1 q1 a p H1 Ha Hp A) as [R|(k' & q' & [Hk'|Hk'] & Hq' & Hs')].
    + right. destruct (read_element_of k1 q1 a p H1 Ha Hp) as (dims & Hd & He). exact (Sr _ dims t t' _ R Hd He).
    + right. exact (C k' q' _ _ t t' Hk' Hq' Hs').
    + left. exists q'. split; [apply nth_eq_of; eauto|exact Hs'].
Qed.

Lemma equations_constant : forall x, sccs_determine V leaf op m sccs -> solution T V clock leaf op t0 m x ->
  constant x (promotable_equations m sccs).
Proof.
  intros x D Sx. unfold promotable_equations.
  enough (G : forall l acc, incl l sccs -> constant x acc ->
    constant x (fold_left (fun promoted scc => if scc_promotable m promoted scc then promoted ++ scc else promoted) l acc)).
  { apply G; [apply incl_refl|]. intros k q w i t t' []. }
  induction l as [|scc l IH]; intros acc Hi C; [exact C|]. cbn. apply IH; [intros y Hy; apply Hi; now right|].
  destruct (scc_promotable m acc scc) eqn:E; [|exact C]. apply scc_constant; auto. apply Hi. now left.
Qed.

(** An equation is promotable because of promotable ones only. *)
Lemma promotable_because : forall k, In k (promotable_equations m sccs) ->
  exists promoted scc q, incl promoted (promotable_equations m sccs) /\ incl scc (promotable_equations m sccs) /\
    nth_error (vm_main m) k = Some q /\ equation_promotable m promoted scc q = true.
Proof.
  unfold promotable_equations.
  enough (G : forall l acc, let r := fold_left (fun promoted scc => if scc_promotable m promoted scc then promoted ++ scc else promoted) l acc in
    incl acc r /\ forall k, In k r -> In k acc \/ exists promoted scc q, incl promoted r /\ incl scc r /\ nth_error (vm_main m) k = Some q /\ equation_promotable m promoted scc q = true).
  { intros k H. destruct (G sccs []) as (_ & G'). destruct (G' k H) as [[]|R]. exact R. }
  induction l as [|scc l IH]; intros acc; cbn zeta; [split; [apply incl_refl|auto]|]. cbn [fold_left].
  destruct (scc_promotable m acc scc) eqn:E.
  - destruct (IH (acc ++ scc)) as (I1 & I2). split; [intros y Hy; apply I1, in_or_app; now left|].
    intros k Hk. destruct (I2 k Hk) as [H|H]; [|right; exact H]. apply in_app_or in H as [H|H]; [now left|right].
    destruct (scc_equation acc scc k E H) as (q & Hq & P). exists acc, scc, q. split; [intros y Hy; apply I1, in_or_app; now left|].
    split; [intros y Hy; apply I1, in_or_app; now right|]. now split.
  - apply IH.
Qed.

(** ** The promoted variables *)
Lemma equations_of_in : forall v l q, In q (equations_of m v l) <-> exists k, In k l /\ nth_error (vm_main m) k = Some q /\ ve_match q = v.
Proof.
  intros v l q. unfold equations_of. rewrite in_flat_map. split; intros (k & Hk & H); exists k; (split; [exact Hk|]).
  - destruct (nth_error (vm_main m) k) as [q'|]; [|destruct H]. destruct (Nat.eqb (ve_match q') v) eqn:E; [|destruct H].
    destruct H as [->|[]]. apply Nat.eqb_eq in E. now split.
  - destruct H as (-> & <-). rewrite Nat.eqb_refl. now left.
Qed.
Lemma union_indices : forall (qs : list (veq K)) s i, in_boxes i (fold_left (fun s q => bs_union s (ve_indices q)) qs s) <->
  in_boxes i s \/ exists q, In q qs /\ in_boxes i (ve_indices q).
Proof.
  induction qs as [|q qs IH]; intros s i; cbn [fold_left].
  - split; [auto|]. intros [H|(q & [] & _)]. exact H.
  - rewrite IH, bs_union_spec. split.
    + intros [[H|H]|(q' & H & E)]; [now left|right; exists q; split; [now left|exact H]|right; exists q'; split; [now right|exact E]].
    + intros [H|(q' & [->|H] & E)]; [auto|auto|]. right. now exists q'.
Qed.
Lemma promoted_solved : forall v dims i, In (v, dims) (promotable_variables m sccs) -> element dims i ->
  exists k q, In k (promotable_equations m sccs) /\ nth_error (vm_main m) k = Some q /\ solved_for q v i.
Proof.
  intros v dims i H He. unfold promotable_variables in H. apply filter_In in H as (Hd & H). unfold promotable_variable in H. cbn [fst snd] in H.
  destruct (equations_of m v (promotable_equations m sccs)) as [|q0 qs] eqn:E; [discriminate|].
  destruct dims as [|b dims].
  - assert (H0 : In q0 (equations_of m v (promotable_equations m sccs))) by (rewrite E; now left).
    apply equations_of_in in H0 as (k & Hk & Hq & <-). exists k, q0. split; [exact Hk|]. split; [exact Hq|]. cbn in He. subst i.
    destruct (main_write k q0 Hq) as (d & Hd' & R). rewrite (dims_unique _ _ _ Hd' Hd) in R. destruct R as (_ & R).
    split; [reflexivity|]. pose proof (wf_points m W q0 (or_intror (nth_error_In _ _ Hq))) as Np.
    destruct (ve_points q0) as [|p ps]; [easy|]. exists p. split; [now left|]. symmetry. apply R. now left.
  - pose proof (proj1 (bs_eq_spec _ _) H) as Hs. cbn in He. apply Hs, union_indices in He as [He|(q & Hq & He)]; [destruct He as (b' & [] & _)|].
    rewrite <- E in Hq. apply equations_of_in in Hq as (k & Hk & Hq & <-). exists k, q. split; [exact Hk|]. split; [exact Hq|].
    apply (solved_indices k q (b :: dims) i Hq Hd); [discriminate|exact He].
Qed.
Lemma promoted_declared : forall v dims, In (v, dims) (promotable_variables m sccs) -> In (v, dims) (vm_vars m).
Proof. intros v dims H. apply filter_In in H. apply H. Qed.

Lemma promoted_constant : forall x v dims t t' i, sccs_determine V leaf op m sccs -> solution T V clock leaf op t0 m x ->
  In (v, dims) (promotable_variables m sccs) -> element dims i -> x t v i = x t' v i.
Proof.
  intros x v dims t t' i D Sx H He. destruct (promoted_solved v dims i H He) as (k & q & Hk & Hq & Hs).
  exact (equations_constant x D Sx k q v i t t' Hk Hq Hs).
Qed.

Lemma clone_main : forall q', In q' (flat_map (clones m) (promotable_variables m sccs)) ->
  exists q, In q (vm_main m) /\ incl (ve_points q') (ve_points q) /\ ve_left q' = ve_left q /\ ve_right q' = ve_right q.
Proof.
  intros q' H. apply in_flat_map in H as (v & _ & H). unfold clones in H. apply in_flat_map in H as (k & _ & H).
  destruct (nth_error (vm_main m) k) as [q|] eqn:E; [|destruct H]. exists q. split; [exact (nth_error_In _ _ E)|].
  unfold initial_clone in H. destruct (bs_empty (snd v)).
  - destruct (negb _); [|destruct H]. destruct H as [<-|[]]. split; [apply incl_refl|auto].
  - destruct (negb _ && negb _); [|destruct H]. destruct H as [<-|[]]. cbn. split; [|auto]. intros p Hp. apply filter_In in Hp. apply Hp.
Qed.
Lemma main_left : forall q', In q' (vm_main (promote m sccs)) <->
  exists k, nth_error (vm_main m) k = Some q' /\ ~ In k (flat_map (moved m) (promotable_variables m sccs)).
Proof.
  intros q'. cbn [promote vm_main]. rewrite in_flat_map. split.
  - intros ([k q] & H & Hq). cbn in Hq. destruct (memb k _) eqn:M; [destruct Hq|]. destruct Hq as [<-|[]].
    apply combine_seq_in in H as (_ & H). rewrite Nat.sub_0_r in H. exists k. split; [exact H|]. intros Hk. apply memb_in in Hk. congruence.
  - intros (k & H & N). exists (k, q'). split; [apply combine_seq_in; rewrite Nat.sub_0_r; split; [lia|exact H]|]. cbn.
    destruct (memb k _) eqn:M; [apply memb_in in M; contradiction|now left].
Qed.

Lemma promote_sound : forall x, sccs_determine V leaf op m sccs -> solution T V clock leaf op t0 m x ->
  solution T V clock leaf op t0 (promote m sccs) x.
Proof.
  intros x D Sx. pose proof Sx as [Sr Si Sm]. constructor.
  - cbn [promote vm_readonly vm_vars]. intros v dims t t' i Hv Hd He. apply in_app_or in Hv as [Hv|Hv]; [exact (Sr v dims t t' i Hv Hd He)|].
    apply in_map_iff in Hv as ([v' d'] & E & Hv). cbn in E. subst v'. pose proof (promoted_declared _ _ Hv) as Hd'.
    rewrite (dims_unique _ _ _ Hd' Hd) in Hv. exact (promoted_constant x v dims t t' i D Sx Hv He).
  - cbn [promote vm_initial]. intros q Hq. apply in_app_or in Hq as [Hq|Hq]; [exact (Si q Hq)|].
    destruct (clone_main q Hq) as (q0 & H0 & Hp & El & Er). intros p Hpp. rewrite El, Er. apply (Sm q0 t0 H0). exact (Hp p Hpp).
  - intros q t Hq. apply main_left in Hq as (k & Hq & _). apply Sm. exact (nth_error_In _ _ Hq).
Qed.

(** ** The elements left *)
Lemma written_boxes : forall h v s b, wm_getWrittenIndices (wm_run h) v = Some s -> In b s -> exists s' e, In (v, s', e) h /\ In b s'.
Proof.
  intros h v s b H Hb. unfold wm_getWrittenIndices in H. destruct (negb _ && negb _); [discriminate|].
  destruct (map_find v (warray (wm_run h))) as [t|] eqn:E; injection H as <-; [|destruct Hb].
  assert (G : forall (t : list wentry) acc, In b (fold_left (fun s x => bs_union s [fst x]) t acc) -> In b acc \/ exists e, In (b, e) t).
  { clear. induction t as [|[b' e] t IH]; intros acc H; cbn in H; [now left|]. apply IH in H as [H|(e' & H)].
    - unfold bs_union in H. apply in_app_or in H as [H|[<-|[]]]; [now left|right; exists e; now left].
    - right. exists e'. now right. }
  apply G in Hb as [[]|(e & Hb)]. pose proof (wi_entry _ _ (run_inv h) v b e) as We. unfold entries_of in We. rewrite E in We.
  apply We in Hb as (s' & Hs' & Hb). eauto.
Qed.
Lemma eqs_indices : forall eqs v dims s e, (forall q, In q eqs -> In q (vm_initial m) \/ In q (vm_main m)) ->
  In (v, dims) (vm_vars m) -> In (v, s, e) (hist eqs) ->
  exists q, In q eqs /\ ve_match q = v /\ ve_indices q = s /\ reached_by (ve_points q) (ve_write q) dims s.
Proof.
  intros eqs v dims s e Hi Hd H. apply hist_in in H as (q & Hq & -> & ->). pose proof (nth_error_In _ _ Hq) as Hin. exists q.
  split; [exact Hin|]. split; [reflexivity|]. split; [reflexivity|]. destruct (wf_write m W q (Hi q Hin)) as (d & Hd' & R).
  now rewrite (dims_unique _ _ _ Hd' Hd) in R.
Qed.
Lemma written_of : forall eqs v dims rk s, (forall q, In q eqs -> In q (vm_initial m) \/ In q (vm_main m)) ->
  In (v, dims) (vm_vars m) -> dims <> [] -> bs_of rk dims -> wm_getWrittenIndices (writes_map eqs) v = Some s ->
  bs_of rk s /\ forall i, in_boxes i s <-> exists q, In q eqs /\ solved_for q v i.
Proof.
  intros eqs v dims rk s Hi Hd N Bd E. unfold writes_map in E. fold (hist eqs) in E. destruct dims as [|b0 dims]; [easy|]. split.
  - apply Forall_forall. intros b Hb. destruct (written_boxes _ _ _ _ E Hb) as (s' & e & H & Hb').
    destruct (eqs_indices eqs v (b0 :: dims) s' e Hi Hd H) as (q & _ & _ & _ & _ & (rk' & B & B') & _).
    inversion Bd; inversion B'; subst. rewrite (box_rank rk rk' b0) by assumption. exact (proj1 (Forall_forall _ _) B b Hb').
  - pose proof (written_indices_spec (hist eqs) v) as S. rewrite E in S. destruct S as (_ & S). intros i. rewrite S. split.
    + intros (s' & e & H & Hs). destruct (eqs_indices eqs v (b0 :: dims) s' e Hi Hd H) as (q & Hq & Em & _ & _ & _ & R & _).
      exists q. split; [exact Hq|]. split; [now symmetry|]. now apply R.
    + intros (q & Hq & -> & Hp). apply In_nth_error in Hq as (k & Hk). exists (ve_indices q), k.
      assert (H : In (ve_match q, ve_indices q, k) (hist eqs)) by (apply hist_in; eauto). split; [exact H|].
      destruct (wf_write m W q (Hi q (nth_error_In _ _ Hk))) as (d & Hd' & R). rewrite (dims_unique _ _ _ Hd' Hd) in R.
      destruct R as (_ & _ & R & _). now apply R.
Qed.
Lemma none_of : forall (eqs : list (veq K)) v i, wm_getWrittenIndices (writes_map eqs) v = None -> ~ exists q, In q eqs /\ solved_for q v i.
Proof.
  intros eqs v i E (q & Hq & -> & _). unfold writes_map in E. fold (hist eqs) in E. pose proof (written_indices_spec (hist eqs) (ve_match q)) as S.
  rewrite E in S. apply S. apply In_nth_error in Hq as (k & Hk). exists (ve_indices q), k. apply hist_in. eauto.
Qed.
Lemma left_spec : forall v dims rk, In (v, dims) (vm_vars m) -> dims <> [] -> bs_of rk dims ->
  bs_of rk (elements_left m v) /\
  forall i, in_boxes i (elements_left m v) <->
    (exists q, In q (vm_main m) /\ solved_for q v i) /\ ~ exists q, In q (vm_initial m) /\ solved_for q v i.
Proof.
  intros v dims rk Hd N Bd. unfold elements_left.
  assert (M : let w := match wm_getWrittenIndices (writes_map (vm_main m)) v with Some s => s | None => [] end in
    bs_of rk w /\ forall i, in_boxes i w <-> exists q, In q (vm_main m) /\ solved_for q v i).
  { cbn zeta. destruct (wm_getWrittenIndices (writes_map (vm_main m)) v) as [s|] eqn:E.
    - exact (written_of (vm_main m) v dims rk s (fun q H => or_intror H) Hd N Bd E).
    - split; [constructor|]. intros i. split; [intros (b & [] & _)|]. intros H. destruct (none_of _ _ _ E H). }
  cbn zeta in M. destruct M as (Mb & Ms). cbn zeta. destruct (wm_getWrittenIndices (writes_map (vm_initial m)) v) as [s|] eqn:E.
  - destruct (written_of (vm_initial m) v dims rk s (fun q H => or_introl H) Hd N Bd E) as (Ib & Is).
    destruct (bs_diff_spec rk s _ Mb Ib) as (B & D). split; [exact B|]. intros i. now rewrite D, Ms, Is.
  - split; [exact Mb|]. intros i. rewrite Ms. split; [|tauto]. intros H. split; [exact H|]. exact (none_of _ _ i E).
Qed.

Lemma promoted_rank : forall v dims, In (v, dims) (promotable_variables m sccs) -> dims <> [] -> exists rk, bs_of rk dims.
Proof.
  intros v dims H N. pose proof (promoted_declared _ _ H) as Hd. destruct dims as [|b dims]; [easy|].
  apply filter_In in H as (_ & H). unfold promotable_variable in H. cbn [fst snd] in H.
  destruct (equations_of m v (promotable_equations m sccs)) as [|q qs] eqn:E; [discriminate|].
  assert (H0 : In q (equations_of m v (promotable_equations m sccs))) by (rewrite E; now left).
  apply equations_of_in in H0 as (k & _ & Hq & <-). destruct (main_write k q Hq) as (d & Hd' & R).
  rewrite (dims_unique _ _ _ Hd' Hd) in R. destruct R as (_ & (rk & _ & B) & _). eauto.
Qed.
Lemma scalar_solved : forall q v, In q (vm_initial m) \/ In q (vm_main m) -> ve_match q = v -> In (v, []) (vm_vars m) -> solved_for q v [].
Proof.
  intros q v Hq <- Hd. destruct (wf_write m W q Hq) as (d & Hd' & R). rewrite (dims_unique _ _ _ Hd' Hd) in R. destruct R as (_ & R).
  split; [reflexivity|]. pose proof (wf_points m W q Hq) as Np. destruct (ve_points q) as [|p ps]; [easy|].
  exists p. split; [now left|]. symmetry. apply R. now left.
Qed.
(** A moved equation of a promoted variable is solved for an element of it, one
    that is left if it is an array. *)
Lemma moved_in : forall v dims k, In (v, dims) (promotable_variables m sccs) -> In k (moved m (v, dims)) ->
  exists q i, nth_error (vm_main m) k = Some q /\ solved_for q v i /\ element dims i /\ (dims <> [] -> in_boxes i (elements_left m v)).
Proof.
  intros v dims k Hv H. unfold moved in H. cbn [fst] in H. pose proof (promoted_declared _ _ Hv) as Hd.
  destruct (elements_left m v) as [|e es] eqn:El.
  - unfold writes_map in H. apply writes_scalar_in in H. apply hist_in in H as (q & Hq & -> & Eq). destruct (main_write k q Hq) as (d & Hd' & R).
    rewrite (dims_unique _ _ _ Hd' Hd) in R. destruct dims as [|b dims].
    + exists q, []. split; [exact Hq|]. split; [|split; [reflexivity|easy]]. apply scalar_solved; auto. right. exact (nth_error_In _ _ Hq).
    + destruct R as (N & _). symmetry in Eq. contradiction.
  - destruct dims as [|b dims].
    + (* nothing is left of a scalar *)
      exfalso. unfold elements_left in El.
      assert (Nil : forall eqs s, (forall q, In q eqs -> In q (vm_initial m) \/ In q (vm_main m)) -> wm_getWrittenIndices (writes_map eqs) v = Some s -> s = []).
      { intros eqs s Hi E. destruct s as [|b s]; [reflexivity|]. unfold writes_map in E.
        destruct (written_boxes _ _ _ b E (or_introl eq_refl)) as (s' & e' & H' & Hb).
        destruct (eqs_indices eqs v [] s' e' Hi Hd H') as (q & _ & _ & _ & -> & _). destruct Hb. }
      assert (M : match wm_getWrittenIndices (writes_map (vm_main m)) v with Some s => s | None => [] end = []).
      { destruct (wm_getWrittenIndices (writes_map (vm_main m)) v) as [s|] eqn:E; [|reflexivity]. exact (Nil (vm_main m) s (fun q H => or_intror H) E). }
      cbn zeta in El. rewrite M in El. destruct (wm_getWrittenIndices (writes_map (vm_initial m)) v) as [s|] eqn:E; [|discriminate].
      rewrite (Nil (vm_initial m) s (fun q H => or_introl H) E) in El. discriminate.
    + destruct (promoted_rank v _ Hv) as (rk & Bd); [discriminate|].
      destruct (left_spec v (b :: dims) rk Hd ltac:(discriminate) Bd) as (Lb & Ls). rewrite El in Lb.
      apply (writers v (b :: dims) (e :: es) rk k Hd ltac:(discriminate) Lb Bd ltac:(discriminate)) in H as (q & i & Hq & Hs & Hi).
      exists q, i. split; [exact Hq|]. split; [exact Hs|]. split; [|auto]. destruct Hs as (-> & Hs).
      destruct (main_write k q Hq) as (d & Hd' & R). rewrite (dims_unique _ _ _ Hd' Hd) in R. destruct R as (_ & _ & R & R'). now apply R', R.
Qed.
Lemma moved_promotable : forall v dims k, In (v, dims) (promotable_variables m sccs) -> In k (moved m (v, dims)) -> In k (promotable_equations m sccs).
Proof.
  intros v dims k Hv H. destruct (moved_in v dims k Hv H) as (q & i & Hq & Hs & He & _).
  destruct (promoted_solved v dims i Hv He) as (k' & q' & Hk' & Hq' & Hs'). now rewrite (wf_once m W k k' q q' v i Hq Hq' Hs Hs').
Qed.

Lemma bs_mem_dec_initial : forall (q : veq K) p, In q (vm_main m) -> In p (ve_points q) ->
  (exists q', In q' (vm_initial m) /\ solved_for q' (ve_match q) (ve_write q p)) \/
  ~ exists q', In q' (vm_initial m) /\ solved_for q' (ve_match q) (ve_write q p).
Proof.
  intros q p _ _. generalize (ve_match q) (ve_write q p). intros v i. induction (vm_initial m) as [|q' l IH].
  - right. intros (q' & [] & _).
  - destruct IH as [(q2 & H & S)|N]; [left; exists q2; split; [now right|exact S]|].
    assert (D : solved_for q' v i \/ ~ solved_for q' v i).
    { unfold solved_for. destruct (Nat.eq_dec v (ve_match q')) as [E|E]; [|right; tauto].
      destruct (in_dec (list_eq_dec Z.eq_dec) i (map (ve_write q') (ve_points q'))) as [H|H].
      - left. apply in_map_iff in H as (p' & <- & H). eauto.
      - right. intros (_ & p' & Hp & ->). apply H, in_map, Hp. }
    destruct D as [D|D]; [left; exists q'; split; [now left|exact D]|]. right. intros (q2 & [<-|H] & S); [exact (D S)|]. apply N. eauto.
Qed.
(** What a moved equation says is kept by the initial equations. *)
Lemma moved_initial : forall v dims k q p, initial_repeats m -> arrays_iterated m ->
  In (v, dims) (promotable_variables m sccs) -> In k (moved m (v, dims)) -> nth_error (vm_main m) k = Some q -> In p (ve_points q) ->
  exists q', In q' (vm_initial (promote m sccs)) /\ In p (ve_points q') /\ ve_left q' = ve_left q /\ ve_right q' = ve_right q.
Proof.
  intros v dims k q p Rep Arr Hv Hk Hq Hp. pose proof (promoted_declared _ _ Hv) as Hd. pose proof (nth_error_In _ _ Hq) as Hin.
  destruct (moved_in v dims k Hv Hk) as (q2 & i & Hq2 & Hs & _ & _). assert (q2 = q) by congruence. subst q2. destruct Hs as (-> & Hs).
  destruct (main_write k q Hq) as (d & Hd' & R). rewrite (dims_unique _ _ _ Hd' Hd) in R.
  assert (Cl : forall q', In q' (initial_clone m (ve_match q, dims) q) -> In q' (vm_initial (promote m sccs))).
  { intros q' H. cbn [promote vm_initial]. apply in_or_app. right. apply in_flat_map. exists (ve_match q, dims). split; [exact Hv|].
    unfold clones. apply in_flat_map. exists k. split; [exact Hk|]. now rewrite Hq. }
  assert (Old : (exists q', In q' (vm_initial m) /\ solved_for q' (ve_match q) (ve_write q p)) ->
    exists q', In q' (vm_initial (promote m sccs)) /\ In p (ve_points q') /\ ve_left q' = ve_left q /\ ve_right q' = ve_right q).
  { intros H. destruct (Rep q p Hin Hp H) as (q' & Hq' & E). exists q'. split; [|exact E]. cbn [promote vm_initial]. apply in_or_app. now left. }
  unfold initial_clone in Cl. cbn [fst snd] in Cl. destruct dims as [|b dims]; cbn [bs_empty] in Cl.
  - destruct (wm_isWritten (writes_map (vm_initial m)) (ve_match q)) eqn:E; cbn [negb] in Cl.
    + apply Old. unfold writes_map in E. apply written_spec in E as (s & e & E). apply hist_in in E as (q' & Hq' & Em & _).
      exists q'. pose proof (nth_error_In _ _ Hq') as Hi. split; [exact Hi|]. destruct R as (_ & R). rewrite (R p Hp).
      apply scalar_solved; auto.
    + exists q. split; [apply Cl; now left|auto].
  - destruct (promoted_rank _ _ Hv) as (rk & Bd); [discriminate|].
    destruct (left_spec _ _ rk Hd ltac:(discriminate) Bd) as (Lb & Ls).
    destruct (bs_mem (elements_left m (ve_match q)) (ve_write q p)) eqn:Mem.
    + apply bs_mem_spec in Mem. destruct R as (_ & (rk' & B & B') & R & _). inversion Bd; inversion B'; subst.
      assert (rk' = rk) as -> by (apply (box_rank rk' rk b); assumption).
      destruct (bs_intersect_spec rk _ _ B Lb) as (_ & Is).
      assert (Hw : in_boxes (ve_write q p) (bs_intersect (ve_indices q) (elements_left m (ve_match q)))).
      { apply Is. split; [apply R; eauto|exact Mem]. }
      exists (restrict_to q (bs_intersect (ve_indices q) (elements_left m (ve_match q)))). split; [|cbn; split; [|auto]].
      * apply Cl. destruct (bs_empty (bs_intersect (ve_indices q) (elements_left m (ve_match q)))) eqn:E1.
        { destruct (bs_intersect _ _); [destruct Hw as (? & [] & _)|discriminate]. }
        destruct (bs_empty (ve_space q)) eqn:E2; [|now left].
        destruct (Arr q (b :: dims) Hin Hd ltac:(discriminate)). destruct (ve_space q); [reflexivity|discriminate].
      * apply filter_In. split; [exact Hp|]. now apply bs_mem_spec.
    + apply Old. destruct (bs_mem_dec_initial q p Hin Hp) as [H|H]; [exact H|]. exfalso.
      assert (F : bs_mem (elements_left m (ve_match q)) (ve_write q p) = true); [|congruence].
      apply bs_mem_spec, Ls. split; [|exact H]. exists q. split; [exact Hin|]. split; [reflexivity|eauto].
Qed.

(** ** The solutions of the promoted model *)
Lemma solved_element : forall k q w i, nth_error (vm_main m) k = Some q -> solved_for q w i -> exists dims, In (w, dims) (vm_vars m) /\ element dims i.
Proof.
  intros k q w i Hq (-> & p & Hp & ->). destruct (main_write k q Hq) as (dims & Hd & R). exists dims. split; [exact Hd|].
  destruct dims as [|b dims]; [apply R, Hp|]. destruct R as (_ & _ & R & R'). apply R', R. eauto.
Qed.
Lemma kept_main : forall k q, nth_error (vm_main m) k = Some q -> ~ In (ve_match q) (vm_readonly (promote m sccs)) -> In q (vm_main (promote m sccs)).
Proof.
  intros k q Hq N. apply main_left. exists k. split; [exact Hq|]. intros G. apply in_flat_map in G as ([v dims] & Hv & G).
  destruct (moved_in v dims k Hv G) as (q2 & i & Hq2 & (E & _) & _). assert (q2 = q) by congruence. subst q2 v.
  apply N. cbn [promote vm_readonly]. apply in_or_app. right. exact (in_map fst _ _ Hv).
Qed.
Definition scc_rest (scc : list nat) : list (veq K) :=
  flat_map (fun k => match nth_error (vm_main m) k with
                     | Some q => if memb (ve_match q) (vm_readonly (promote m sccs)) then [] else [q]
                     | None => [] end) scc.
Lemma scc_rest_in : forall scc q, In q (scc_rest scc) <-> exists k, In k scc /\ nth_error (vm_main m) k = Some q /\ ~ In (ve_match q) (vm_readonly (promote m sccs)).
Proof.
  intros scc q. unfold scc_rest. rewrite in_flat_map. split; intros (k & Hk & H); exists k; (split; [exact Hk|]).
  - destruct (nth_error (vm_main m) k) as [q'|]; [|destruct H]. destruct (memb (ve_match q') (vm_readonly (promote m sccs))) eqn:M; [destruct H|].
    destruct H as [->|[]]. split; [reflexivity|]. intros G. apply memb_in in G. congruence.
  - destruct H as (-> & N). destruct (memb (ve_match q) (vm_readonly (promote m sccs))) eqn:M; [apply memb_in in M; contradiction|now left].
Qed.
Lemma promoted_equations_constant : forall x, rest_determines V leaf op m (promote m sccs) sccs ->
  solution T V clock leaf op t0 (promote m sccs) x -> constant x (promotable_equations m sccs).
Proof.
  intros x D [Sr _ Sm]. unfold promotable_equations.
  enough (G : forall l acc, incl l sccs -> constant x acc ->
    constant x (fold_left (fun promoted scc => if scc_promotable m promoted scc then promoted ++ scc else promoted) l acc)).
  { apply G; [apply incl_refl|]. intros k q w i t t' []. }
  induction l as [|scc l IH]; intros acc Hi C; [exact C|]. cbn [fold_left]. apply IH; [intros y Hy; apply Hi; now right|].
  destruct (scc_promotable m acc scc) eqn:E; [|exact C]. intros k q w i t t' Hk Hq Hs.
  apply in_app_or in Hk as [Hk|Hk]; [exact (C k q w i t t' Hk Hq Hs)|].
  assert (Ro : forall k q w i, nth_error (vm_main m) k = Some q -> solved_for q w i -> In (ve_match q) (vm_readonly (promote m sccs)) -> x t w i = x t' w i).
  { intros k1 q1 w1 i1 H1 S1 R1. destruct (solved_element k1 q1 w1 i1 H1 S1) as (dims & Hd & He). destruct S1 as (-> & _).
    exact (Sr (ve_match q1) dims t t' i1 R1 Hd He). }
  destruct (in_dec Nat.eq_dec (ve_match q) (vm_readonly (promote m sccs))) as [R|R]; [exact (Ro k q w i Hq Hs R)|].
  apply (D scc (scc_rest scc) (Hi scc (or_introl eq_refl)) (scc_rest_in scc) (clock t) (x t) (x t')) with (q := q); [| | |apply scc_rest_in; eauto|exact Hs].
  - intros q1 H1. apply scc_rest_in in H1 as (k1 & _ & H1 & N1). apply Sm. exact (kept_main k1 q1 H1 N1).
  - intros q1 H1. apply scc_rest_in in H1 as (k1 & Hk1 & H1 & N1). destruct (scc_equation acc scc k1 E Hk1) as (q2 & H2 & P).
    assert (q2 = q1) by congruence. subst q2. destruct (equation_parts acc scc q1 P) as (U & _).
    apply (holds_agree (clock t') (clock t) (x t') (x t') q1 U); [reflexivity|]. apply Sm. exact (kept_main k1 q1 H1 N1).
  - intros q1 w1 i1 H1 (a & p & Ha & Hp & -> & ->). apply scc_rest_in in H1 as (k1 & Hk1 & H1 & N1).
    destruct (scc_equation acc scc k1 E Hk1) as (q2 & H2 & P). assert (q2 = q1) by congruence. subst q2.
    destruct (equation_parts acc scc q1 P) as (_ & A). specialize (A a Ha).
    destruct (access_cases acc scc k1 q1 a p H1 Ha Hp A) as [Rr|(k' & q' & [Hk'|Hk'] & Hq' & Hs')].
    + right. destruct (read_element_of k1 q1 a p H1 Ha Hp) as (dims & Hd & He). apply (Sr _ dims t t'); auto.
      cbn [promote vm_readonly]. apply in_or_app. now left.
    + right. exact (C k' q' _ _ t t' Hk' Hq' Hs').
    + destruct (in_dec Nat.eq_dec (ve_match q') (vm_readonly (promote m sccs))) as [R'|R'].
      * right. exact (Ro k' q' _ _ Hq' Hs' R').
      * left. exists q'. split; [apply scc_rest_in; eauto|exact Hs'].
Qed.

Lemma promote_complete : forall x, initial_repeats m -> arrays_iterated m -> rest_determines V leaf op m (promote m sccs) sccs ->
  solution T V clock leaf op t0 (promote m sccs) x -> solution T V clock leaf op t0 m x.
Proof.
  intros x Rep Arr D Sx. pose proof (promoted_equations_constant x D Sx) as C. destruct Sx as [Sr Si Sm]. constructor.
  - intros v dims t t' i Hv. apply Sr. cbn [promote vm_readonly]. apply in_or_app. now left.
  - intros q Hq. apply Si. cbn [promote vm_initial]. apply in_or_app. now left.
  - intros q t Hq. apply In_nth_error in Hq as (k & Hq).
    destruct (in_dec Nat.eq_dec k (flat_map (moved m) (promotable_variables m sccs))) as [G|G].
    + apply in_flat_map in G as ([v dims] & Hv & G).
      destruct (promotable_because k (moved_promotable v dims k Hv G)) as (promoted & scc & q2 & I1 & I2 & H2 & P).
      assert (q2 = q) by congruence. subst q2. destruct (equation_parts promoted scc q P) as (U & A).
      apply (holds_agree (clock t0) (clock t) (x t0) (x t) q U).
      * intros w i (a & p & Ha & Hp & -> & ->). destruct (read_element_of k q a p Hq Ha Hp) as (dims' & Hd & He).
        destruct (access_cases promoted scc k q a p Hq Ha Hp (A a Ha)) as [Ro|(k' & q' & Hk' & Hq' & Hs')].
        { apply (Sr _ dims'); auto. cbn [promote vm_readonly]. apply in_or_app. now left. }
        apply (C k' q'); auto. destruct Hk'; auto.
      * intros p Hp. destruct (moved_initial v dims k q p Rep Arr Hv G Hq Hp) as (q' & Hq' & Hp' & <- & <-). exact (Si q' Hq' p Hp').
    + apply Sm. apply main_left. eauto.
Qed.
End Values.
End Promote.
