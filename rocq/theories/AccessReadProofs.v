(** What a point accesses, for accesses that may reach several elements. *)
From Coq Require Import ZArith List Bool Lia ZifyBool.
From Verif Require Import RangeModel MDRangeModel Result BoxSetModel AccessModel Spec AccessSpec
  RangeProofs MDRangeProofs BoxListProofs BoxSetProofs AccessProofs AccessImageProofs
  AccessInverseProofs AccessPreimageProofs AccessCombineProofs ListTac.
Import ListNotations.
Open Scope Z_scope.

Lemma list_prod_in : forall A B (l : list A) (l' : list B) x y,
  In (x, y) (list_prod l l') <-> In x l /\ In y l'.
Proof. intros. apply in_prod_iff. Qed.

(** A set of coordinates. *)
Definition coords (s : bset) (P : Z -> Prop) : Prop :=
  s <> [] /\ Forall (box_of 1) s /\ forall q, in_boxes q s <-> exists v, q = [v] /\ P v.

Lemma coords_nonempty : forall s P, coords s P -> exists v, P v.
Proof.
  intros s P (N & B & H). destruct (bs_nonempty 1 s B N) as (q & Hq). apply H in Hq as (v & _ & Hv). eauto.
Qed.

Lemma bs_op_coords : forall f s o P Q, coords s P -> coords o Q ->
  exists t, bs_op (fun u v => Ok (f u v)) s o = Ok t /\
    coords t (fun w => exists u v, P u /\ Q v /\ w = f u v).
Proof.
  intros f s o P Q Cs Co. pose proof Cs as (Ns & Bs & Hs). pose proof Co as (No & Bo & Ho).
  unfold bs_op.
  assert (X : exists l, map_res (fun q => zip_res (fun u v => Ok (f u v)) (fst q) (snd q))
                (list_prod (bs_points s) (bs_points o)) = Ok l).
  { apply map_res_total. intros (a & b) H. apply list_prod_in in H as (H1 & H2). cbn [fst snd].
    apply in_bs_points, Hs in H1 as (u & -> & _). apply in_bs_points, Ho in H2 as (v & -> & _). cbn. eauto. }
  destruct X as (l & Hl). rewrite Hl. cbn [bind]. eexists. split; [reflexivity|].
  assert (I : forall q, In q l <-> exists v, q = [v] /\ exists u w, P u /\ Q w /\ v = f u w).
  { intros q. split.
    - intros H. destruct (map_res_in _ _ _ _ _ q Hl H) as ((a & b) & Hab & E).
      apply list_prod_in in Hab as (H1 & H2). apply in_bs_points, Hs in H1 as (u & -> & Pu).
      apply in_bs_points, Ho in H2 as (v & -> & Qv). cbn in E. injection E as <-. exists (f u v). split; [reflexivity|].
      exists u, v. auto.
    - intros (v & -> & u & w & Pu & Qw & ->).
      destruct (map_res_in2 _ _ _ _ _ ([u], [w]) Hl) as (y & Hy & E).
      + apply list_prod_in. split; apply in_bs_points; [apply Hs|apply Ho]; eauto.
      + cbn in E. injection E as <-. assumption. }
  split; [|split].
  - destruct (coords_nonempty s P Cs) as (u & Pu), (coords_nonempty o Q Co) as (v & Qv).
    assert (Y : In [f u v] l) by (apply I; exists (f u v); split; [reflexivity|]; exists u, v; auto).
    destruct l; [destruct Y|discriminate].
  - unfold bs_of_points. apply Forall_forall. intros b Hb. apply in_map_iff in Hb as (q & <- & Hq).
    apply I in Hq as (v & -> & _). apply of_point_box; [reflexivity|lia].
  - intros q. rewrite of_points_in. apply I.
Qed.

Lemma coords_ext : forall s P Q, (forall v, P v <-> Q v) -> coords s P -> coords s Q.
Proof.
  intros s P Q E (N & B & H). split; [assumption|]. split; [assumption|]. intros q. rewrite H.
  split; intros (v & -> & X); exists v; (split; [reflexivity|]); now apply E.
Qed.

Lemma da_map_reads : forall n p cur a, independent n a -> (n <= length p)%nat ->
  exists s, da_map p cur a = Ok s /\ coords s (reads p a).
Proof.
  intros n p cur. induction a; cbn [independent da_map]; intros H L.
  - exists [mdrange_of_point [c]]. split; [reflexivity|]. split; [discriminate|].
    split; [constructor; [apply of_point_box; [reflexivity|lia]|constructor]|].
    intros q. rewrite in_boxes_point. split.
    + intros ->. exists c. split; [reflexivity|constructor].
    + intros (v & -> & R). now inversion R.
  - destruct (nth_error_some _ p d) as (v & Hv); [lia|]. rewrite Hv. cbn [of_option bind].
    exists [mdrange_of_point [v]]. split; [reflexivity|]. split; [discriminate|].
    split; [constructor; [apply of_point_box; [reflexivity|lia]|constructor]|].
    intros q. rewrite in_boxes_point. split.
    + intros ->. exists v. split; [reflexivity|now constructor].
    + intros (w & -> & R). inversion R; subst. congruence.
  - destruct H as (H1 & H2). destruct (IHa1 H1 L) as (s & -> & Cs), (IHa2 H2 L) as (o & -> & Co). cbn [bind].
    destruct (bs_op_coords Z.add s o _ _ Cs Co) as (t & Ht & Ct). exists t. split; [exact Ht|].
    eapply coords_ext; [|exact Ct]. intros v. split.
    + intros (u & w & Hu & Hw & ->). now constructor.
    + intros R. inversion R; subst. eauto.
  - destruct H as (H1 & H2). destruct (IHa1 H1 L) as (s & -> & Cs), (IHa2 H2 L) as (o & -> & Co). cbn [bind].
    destruct (bs_op_coords Z.sub s o _ _ Cs Co) as (t & Ht & Ct). exists t. split; [exact Ht|].
    eapply coords_ext; [|exact Ct]. intros v. split.
    + intros (u & w & Hu & Hw & ->). now constructor.
    + intros R. inversion R; subst. eauto.
  - destruct H as (H1 & H2). destruct (IHa1 H1 L) as (s & -> & Cs), (IHa2 H2 L) as (o & -> & Co). cbn [bind].
    destruct (bs_op_coords Z.mul s o _ _ Cs Co) as (t & Ht & Ct). exists t. split; [exact Ht|].
    eapply coords_ext; [|exact Ct]. intros v. split.
    + intros (u & w & Hu & Hw & ->). now constructor.
    + intros R. inversion R; subst. eauto.
  - destruct H.
  - exists [[r]]. split; [reflexivity|]. split; [discriminate|].
    split; [constructor; [split; [split; [discriminate|constructor; [assumption|constructor]]|reflexivity]|constructor]|].
    intros q. rewrite in_boxes_single. split.
    + intros Hq. inversion Hq as [|v r' q' b' Hv Hq']; subst. inversion Hq'; subst.
      exists v. split; [reflexivity|now constructor].
    + intros (v & -> & R). inversion R; subst. constructor; [assumption|constructor].
  - destruct H as (-> & N & rk & B & Hd). rewrite Forall_forall in B.
    assert (X : exists t, map_res (fun b => r <- of_option (nth_error b dim) ;; Ok [r]) space = Ok t).
    { apply map_res_total. intros b Hb. destruct (B b Hb) as (_ & Lb).
      destruct (nth_error_some _ b dim) as (r & ->); [lia|]. cbn. eauto. }
    destruct X as (t & Ht). exists t. split; [exact Ht|]. split; [|split].
    + pose proof (map_res_length _ _ _ _ _ Ht). destruct space, t; try discriminate; congruence.
    + apply Forall_forall. intros b' Hb'. destruct (map_res_in _ _ _ _ _ b' Ht Hb') as (b & Hb & E).
      apply bind_ok in E as (r & Hr & E). injection E as <-. apply of_option_inv in Hr.
      destruct (B b Hb) as ((_ & Ro) & _). rewrite Forall_forall in Ro.
      split; [|reflexivity]. split; [discriminate|]. constructor; [|constructor].
      apply Ro. eapply nth_error_In; eauto.
    + intros q. split.
      * intros (b' & Hb' & Hq). destruct (map_res_in _ _ _ _ _ b' Ht Hb') as (b & Hb & E).
        apply bind_ok in E as (r & Hr & E). injection E as <-. apply of_option_inv in Hr.
        inversion Hq as [|v r' q' b'' Hv Hq']; subst. inversion Hq'; subst.
        exists v. split; [reflexivity|]. destruct (B b Hb) as ((Nb & Ro) & Lb).
        assert (Y : exists y, in_box y b).
        { clear - Ro. induction Ro as [|x b Hx Ro (y & Hy)]; [exists []; constructor|].
          exists (rbegin x :: y). constructor; [|assumption]. unfold range_ok, in_range in *. lia. }
        destruct Y as (y & Hy). apply reads_indices with (x := set_nth y dim v).
        -- exists b. split; [assumption|]. eapply set_in_box; eauto.
        -- apply set_nth_same. rewrite (in_box_length _ _ Hy). lia.
      * intros (v & -> & R). inversion R as [| | | | | |i' s' d' ds x w Hx Hw]; subst.
        destruct Hx as (b & Hb & Hx). destruct (map_res_in2 _ _ _ _ _ b Ht Hb) as (b' & Hb' & E).
        apply bind_ok in E as (r & Hr & E). injection E as <-. apply of_option_inv in Hr.
        destruct (in_box_nth x b dim r Hx Hr) as (w & Hw' & Hin). rewrite Hw in Hw'. injection Hw' as <-.
        exists [r]. split; [assumption|]. constructor; [assumption|constructor].
Qed.

Lemma append_reads : forall n p cur rs, Forall (independent n) rs -> (n <= length p)%nat ->
  forall k acc (P : point -> Prop), acc <> [] -> bs_of k acc -> (1 <= k)%nat -> (forall q, in_boxes q acc <-> P q) ->
  exists t, append_results p cur rs acc = Ok t /\
    forall q, in_boxes q t <-> exists q1 q2, q = q1 ++ q2 /\ P q1 /\ Forall2 (reads p) rs q2.
Proof.
  intros n p cur rs H L. unfold append_results.
  induction H as [|a rs Ha H IH]; intros k acc P N B Hk HP; cbn [fold_res].
  - exists acc. split; [reflexivity|]. intros q. rewrite HP. split.
    + intros X. exists q, []. rewrite app_nil_r. auto.
    + intros (q1 & q2 & -> & X & F). inversion F; subst. now rewrite app_nil_r.
  - destruct (da_map_reads n p cur a Ha L) as (s & -> & Cs). cbn [bind].
    destruct (bs_empty acc) eqn:E; [destruct acc; [congruence|discriminate]|].
    pose proof Cs as (Ns & Bs & Hs).
    assert (Ba : bs_of (k + 1) (bs_append acc s)).
    { unfold bs_of, bs_append. apply Forall_forall. intros b Hb. apply in_flat_map in Hb as (b1 & Hb1 & Hb).
      apply in_map_iff in Hb as (b2 & <- & Hb2). unfold bs_of in B. rewrite Forall_forall in B, Bs.
      destruct (B b1 Hb1) as ((N1 & R1) & L1), (Bs b2 Hb2) as ((N2 & R2) & L2).
      unfold mdrange_append. split; [|rewrite app_length; lia]. split; [destruct b1; [congruence|discriminate]|].
      apply Forall_app. auto. }
    destruct (IH (k + 1)%nat (bs_append acc s)
                (fun q => exists q1 v, q = q1 ++ [v] /\ P q1 /\ reads p a v)) as (t & Ht & X).
    + unfold bs_append. destruct acc, s; try congruence. discriminate.
    + assumption.
    + lia.
    + intros q. rewrite (bs_append_spec k) by assumption. split.
      * intros (q1 & q2 & -> & X1 & X2). apply HP in X1. apply Hs in X2 as (v & -> & X2). eauto.
      * intros (q1 & v & -> & X1 & X2). exists q1, [v]. split; [reflexivity|]. split; [now apply HP|]. apply Hs. eauto.
    + exists t. split; [exact Ht|]. intros q. rewrite X. split.
      * intros (q1 & q2 & -> & (q3 & v & -> & X1 & X2) & F). exists q3, (v :: q2). rewrite <- app_assoc.
        split; [reflexivity|]. split; [assumption|]. now constructor.
      * intros (q1 & q2 & -> & X1 & F). inversion F as [|a' v rs' q3 Hv F']; subst.
        exists (q1 ++ [v]), q3. rewrite <- app_assoc. split; [reflexivity|]. split; [|assumption]. eauto.
Qed.

Lemma independent_spaces : forall n rs, Forall (independent n) rs -> flat_map da_spaces rs = [].
Proof.
  intros n rs H. induction H as [|a rs Ha H IH]; [reflexivity|]. cbn. rewrite IH, app_nil_r. clear H IH.
  induction a; cbn in *; try tauto; try (destruct Ha as (H1 & H2); now rewrite IHa1, IHa2).
  destruct Ha as (-> & _). reflexivity.
Qed.

Lemma gen_map_reads : forall n p rs, Forall (independent n) rs -> rs <> [] -> (n <= length p)%nat ->
  exists t, gen_map_point rs p = Ok t /\ forall q, in_boxes q t <-> Forall2 (reads p) rs q.
Proof.
  intros n p rs H Hne L. unfold gen_map_point. rewrite (independent_spaces n rs H). cbn [unique_spaces bind].
  destruct rs as [|a rs]; [congruence|]. inversion H; subst. unfold append_results. cbn [fold_res].
  destruct (da_map_reads n p [] a H2 L) as (s & -> & Cs). cbn [bind bs_empty]. pose proof Cs as (Ns & Bs & Hs).
  destruct (append_reads n p [] rs H3 L 1%nat s (fun q => exists v, q = [v] /\ reads p a v)) as (t & Ht & X); auto.
  exists t. split; [exact Ht|]. intros q. rewrite X. split.
  - intros (q1 & q2 & -> & (v & -> & R) & F). cbn. now constructor.
  - intros F. inversion F as [|a' v rs' q3 Hv F']; subst. exists [v], q3. split; [reflexivity|]. eauto.
Qed.

Lemma plain_reads : forall n p a v, plain n a -> (reads p a v <-> dval p a = Some v).
Proof.
  intros n p. induction a; intros v; cbn; intros H; try tauto.
  - split; [intros R; now inversion R|intros E; injection E as <-; constructor].
  - split; [intros R; now inversion R|intros E; now constructor].
  - destruct H as (H1 & H2). split.
    + intros R. inversion R; subst. rewrite (proj1 (IHa1 u H1) H3), (proj1 (IHa2 v0 H2) H5). reflexivity.
    + destruct (dval p a1) as [u|] eqn:E1; [|discriminate]. destruct (dval p a2) as [w|] eqn:E2; [|discriminate].
      intros E. injection E as <-. constructor; [now apply IHa1|now apply IHa2].
  - destruct H as (H1 & H2). split.
    + intros R. inversion R; subst. rewrite (proj1 (IHa1 u H1) H3), (proj1 (IHa2 v0 H2) H5). reflexivity.
    + destruct (dval p a1) as [u|] eqn:E1; [|discriminate]. destruct (dval p a2) as [w|] eqn:E2; [|discriminate].
      intros E. injection E as <-. constructor; [now apply IHa1|now apply IHa2].
  - destruct H as (H1 & H2). split.
    + intros R. inversion R; subst. rewrite (proj1 (IHa1 u H1) H3), (proj1 (IHa2 v0 H2) H5). reflexivity.
    + destruct (dval p a1) as [u|] eqn:E1; [|discriminate]. destruct (dval p a2) as [w|] eqn:E2; [|discriminate].
      intros E. injection E as <-. constructor; [now apply IHa1|now apply IHa2].
Qed.

Lemma plain_reads_list : forall n p rs q, Forall (plain n) rs -> (Forall2 (reads p) rs q <-> dvals p rs = Some q).
Proof.
  intros n p rs q H. revert q. induction H as [|a rs Ha H IH]; intros q; cbn.
  - split; [intros F; now inversion F|intros E; injection E as <-; constructor].
  - split.
    + intros F. inversion F as [|a' v rs' q' Hv F']; subst.
      rewrite (proj1 (plain_reads n p a v Ha) Hv), (proj1 (IH q') F'). reflexivity.
    + destruct (dval p a) as [v|] eqn:E1; [|discriminate]. destruct (dvals p rs) as [q'|] eqn:E2; [|discriminate].
      intros E. injection E as <-. constructor; [now apply (plain_reads n)|now apply IH].
Qed.

Lemma plain_independent : forall n a, plain n a -> independent n a.
Proof. intros n. induction a; cbn; tauto. Qed.

Section Mlir.
Variable m : mlir.
Hypothesis M : mlir_ok m.

(** The expression of a plain access comes back with the same value. *)
Lemma da_of_small : forall n fake e, no_div e -> dims_below n e -> da_of n fake e = da_of 0 [] e.
Proof.
  intros n fake. induction e; cbn; intros H D; try tauto.
  - destruct (Nat.leb_spec n d); [lia|]. destruct (d - 0)%nat; reflexivity.
  - destruct H as (H1 & H2), D as (D1 & D2). now rewrite IHe1, IHe2.
  - destruct H as (H1 & H2), D as (D1 & D2). now rewrite IHe1, IHe2.
Qed.

(** [same_reads n a b]: at every point with [n] coordinates the accesses agree. *)
Definition same_reads (n : nat) (a b : dacc) : Prop :=
  forall p v, length p = n -> (reads p a v <-> reads p b v).

Lemma single_back : forall n N rs fake es fk, (n <= N)%nat -> Forall (single_access n) rs ->
  das_extended m n fake rs = (es, fk) ->
  exists more, fk = fake ++ more /\ forall rest, exists rs',
    map_res (da_of n (fk ++ rest)) (map (simp m N) (map (simp m N) es)) = Ok rs' /\
    Forall2 (fun a b => single_access n b /\ same_reads n a b) rs rs'.
Proof.
  intros n N rs fake es fk HN H. revert fake es fk. induction H as [|a rs Ha H IH]; intros fake es fk E; cbn in E.
  - injection E as <- <-. exists []. rewrite app_nil_r. split; [reflexivity|]. intros rest. exists []. cbn. auto.
  - destruct (da_extended m n fake a) as (e & f1) eqn:E1. destruct (das_extended m n f1 rs) as (es' & f2) eqn:E2.
    injection E as <- <-. destruct (IH f1 es' f2 E2) as (more & -> & X).
    destruct Ha as [Pa|Ra].
    + destruct (da_extended_plain m n n a fake Pa) as (e' & Ee & Eaff). rewrite E1 in Ee. injection Ee as <- ->.
      exists more. split; [reflexivity|]. intros rest. destruct (X rest) as (rs' & Hrs & F).
      destruct (da_affine_plain m M n a Pa) as (e' & Ee & N' & D' & V'). rewrite Eaff in Ee. injection Ee as <-.
      set (e2 := simp m N (simp m N e)).
      assert (N2 : no_div e2) by (do 2 apply (simp_nodiv m M); assumption).
      assert (D2 : dims_below n e2) by (do 2 apply (simp_dims m M); assumption).
      destruct (da_of_plain n e2 N2 D2) as (b & Hb & Pb & Vb).
      exists (b :: rs'). split.
      * cbn [map map_res]. fold e2. rewrite da_of_small by assumption. rewrite Hb. cbn [bind]. rewrite Hrs. reflexivity.
      * constructor; [|assumption]. split; [now left|]. intros p v Lp.
        rewrite (plain_reads n p a v Pa), (plain_reads n p b v Pb), Vb. split.
        -- intros Hv. do 2 apply (simp_eval m M). auto.
        -- intros Hv. destruct (plain_val n p a Pa) as (w & Hw); [lia|].
           assert (Y : aeval p e2 = Some w) by (do 2 apply (simp_eval m M); auto). congruence.
    + assert (G : (e, f1) = (ADim (n + length fake), fake ++ [a])) by (destruct a; try tauto; now rewrite <- E1).
      injection G as -> ->. exists (a :: more). rewrite <- app_assoc. split; [reflexivity|].
      intros rest. destruct (X rest) as (rs' & Hrs & F). exists (a :: rs'). split.
      * cbn [map map_res]. rewrite !(simp_dim m M). cbn [da_of].
        destruct (Nat.leb_spec n (n + length fake)); [|lia].
        replace (n + length fake - n)%nat with (length fake) by lia.
        rewrite <- !app_assoc in Hrs. rewrite <- app_assoc. cbn [app] in *.
        rewrite nth_error_app2 by lia. rewrite Nat.sub_diag. cbn [nth_error bind].
        rewrite Hrs. reflexivity.
      * constructor; [|assumption]. split; [now right|]. intros p v _. reflexivity.
Qed.

Lemma single_independent : forall n a, single_access n a -> independent n a.
Proof. intros n a [H|H]; [now apply plain_independent|]. destruct a; tauto. Qed.
Lemma independent_below : forall n a, independent n a -> acc_below n a.
Proof. intros n. induction a; cbn; tauto. Qed.

Lemma wf_independent_map : forall n k f rs p, af_build0 m n rs = Ok f -> af_wf n k f -> (1 <= k)%nat ->
  Forall (single_access n) rs -> rs <> [] -> length p = n ->
  exists t, af_map_point f p = Ok t /\ forall q, in_boxes q t <-> Forall2 (reads p) rs q.
Proof.
  intros n k f rs p Hf W Hk F Hne Lp.
  assert (FI : Forall (independent n) rs) by (eapply Forall_impl; [|exact F]; apply single_independent).
  unfold af_build0 in Hf.
  destruct (Nat.eqb n 0 && match rs with [] => true | _ => false end) eqn:E0.
  { destruct rs; [congruence|]. rewrite andb_false_r in E0. discriminate. }
  assert (Plain : forall f, Forall (plain n) rs -> af_build0 m n rs = Ok f ->
    exists t, af_map_point f p = Ok t /\ forall q, in_boxes q t <-> Forall2 (reads p) rs q).
  { intros f0 P H0. destruct (build0_plain m M n rs P Hne) as (g & Hg & Pg & Vg). rewrite H0 in Hg. injection Hg as <-.
    destruct (plain_vals n p rs P) as (q & Hq & _); [lia|]. exists [mdrange_of_point q].
    split; [eapply fval_point; eauto; lia|]. intros x. rewrite in_boxes_point, (plain_reads_list n p rs x P), Hq.
    split; [intros ->; reflexivity|intros Eq; injection Eq as <-; reflexivity]. }
  destruct (forallb is_DConst rs) eqn:E1.
  { apply Plain.
    - apply Forall_forall. intros a Ha. rewrite forallb_forall in E1. specialize (E1 a Ha). destruct a; try discriminate. exact I.
    - unfold af_build0. rewrite E0, E1. assumption. }
  destruct (forallb is_constant_access rs) eqn:E2.
  { injection Hf as <-. cbn. apply (gen_map_reads n); auto. lia. }
  destruct (roto_canBeBuilt n rs) eqn:E3.
  { apply Plain.
    - apply Forall_forall. intros a Ha. unfold roto_canBeBuilt in E3. apply andb_prop in E3 as (_ & E3).
      rewrite forallb_forall in E3. specialize (E3 a Ha). rewrite Forall_forall in F. destruct (F a Ha) as [X|X]; [assumption|].
      destruct a; try discriminate; tauto.
    - unfold af_build0. rewrite E0, E1, E2, E3. assumption. }
  injection Hf as <-. cbn. apply (gen_map_reads n); auto. lia.
Qed.

(** Building from accesses keeps what they reach. *)
Lemma build_reads : forall n rs p, Forall (single_access n) rs -> rs <> [] -> length p = n ->
  exists f t, af_build m n rs = Ok f /\ af_map_point f p = Ok t /\
    forall q, in_boxes q t <-> Forall2 (reads p) rs q.
Proof.
  intros n rs p F Hne Lp.
  destruct (das_extended m n [] rs) as (es & fake) eqn:E.
  destruct (single_back n (n + length fake) rs [] es fake) as (more & _ & X); [lia|assumption|assumption|].
  destruct (X []) as (rs' & Hrs & F'). rewrite app_nil_r in Hrs.
  assert (L : length rs' = length rs) by (clear - F'; induction F'; cbn; lia).
  assert (S' : Forall (single_access n) rs') by (clear - F'; induction F'; constructor; tauto).
  assert (B' : Forall (acc_below n) rs').
  { eapply Forall_impl; [|exact S']. intros a Ha. now apply independent_below, single_independent. }
  destruct (build0_wf m M n rs' B') as (f & Hf & W).
  assert (Hne' : rs' <> []) by (intros ->; destruct rs; [congruence|discriminate]).
  destruct (wf_independent_map n _ f rs' p Hf W) as (t & Ht & Y); auto.
  { destruct rs'; [congruence|cbn; lia]. }
  exists f, t. split; [|split; [assumption|]].
  - unfold af_build. rewrite E. unfold af_fromExtended. rewrite Hrs. cbn [bind].
    replace (n + length fake - length fake)%nat with n by lia. assumption.
  - intros q. rewrite Y. clear - F' Lp. split.
    + intros H. revert q H. induction F' as [|a b rs rs' (_ & Hab) F' IH]; intros q H; inversion H; subst; constructor.
      * now apply Hab.
      * auto.
    + intros H. revert q H. induction F' as [|a b rs rs' (_ & Hab) F' IH]; intros q H; inversion H; subst; constructor.
      * now apply Hab.
      * auto.
Qed.
End Mlir.
