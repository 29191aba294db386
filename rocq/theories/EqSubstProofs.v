(** Proofs on the replacement of accesses and on the solution of components. *)
From Coq Require Import ZArith List Bool Arith Lia Permutation.
From Verif Require Import RangeModel MDRangeModel BoxSetModel BoxSetProofs Spec Result AccessModel EqModel EqSpec.
Import ListNotations.
Open Scope Z_scope.

(** * Substitution of inductions *)
Lemma sub_subst_at : forall T s p, sub_at p (sub_subst T s) = sub_at (map (sub_at p) T) s.
Proof.
  intros T s p.
  assert (N : forall k, nth k (map (sub_at p) T) 0 = sub_at p (nth k T (SCst 0))).
  { intros k. change 0 with (sub_at p (SCst 0)) at 1. apply map_nth. }
  destruct s as [k c|a k c|c]; cbn [sub_subst sub_at]; auto.
  - rewrite N. destruct (nth k T (SCst 0)); cbn; lia.
  - rewrite N. destruct (nth k T (SCst 0)); cbn; lia.
Qed.

Lemma subst_ground : forall T e p, ground p (exp_subst T e) = ground (map (sub_at p) T) e.
Proof.
  intros T e p. induction e; cbn; try congruence.
  - f_equal. rewrite map_map. apply map_ext. intros s. apply sub_subst_at.
  - rewrite sub_subst_at. reflexivity.
Qed.

(** * The transformation *)
Lemma all_some_spec : forall A (l : list (option A)) r, all_some l = Some r -> l = map Some r.
Proof.
  induction l as [|[x|] l IH]; intros r H; cbn in H.
  - injection H as <-. reflexivity.
  - destruct (all_some l) as [r'|] eqn:E; [|discriminate]. injection H as <-.
    cbn. rewrite (IH _ eq_refl). reflexivity.
  - discriminate.
Qed.

Lemma dim_position_spec : forall d g pos s, dim_position d g pos = Some s ->
  exists j c, s = SDim (pos + j) (- c) /\ nth_error g j = Some (SDim d c).
Proof.
  induction g as [|x g IH]; intros pos s H; cbn in H; [discriminate|].
  assert (K : dim_position d g (S pos) = Some s ->
    exists j c, s = SDim (pos + j) (- c) /\ nth_error (x :: g) j = Some (SDim d c)).
  { intros E. destruct (IH _ _ E) as (j & c & -> & N). exists (S j), c.
    split; auto. f_equal. lia. }
  destruct x as [k c|a k c|c]; auto.
  destruct (Nat.eqb_spec k d); auto. subst. injection H as <-.
  exists O, c. rewrite Nat.add_0_r. auto.
Qed.

Lemma inverse_spec : forall n g inv, af_inverse_of n g = Some inv ->
  length inv = n /\
  forall w q, length w = n -> (forall j d c, nth_error g j = Some (SDim d c) -> (d < n)%nat -> nth j q 0 = nth d w 0 + c) ->
    map (sub_at q) inv = w.
Proof.
  intros n g inv H. unfold af_inverse_of in H.
  destruct (Nat.eqb n (length g) && forallb is_dim g); [|discriminate].
  apply all_some_spec in H.
  assert (L : length inv = n).
  { pose proof (f_equal (@length _) H) as Q. rewrite !map_length, seq_length in Q. lia. }
  split; auto. intros w q Lw Hq.
  apply (nth_ext _ _ 0 0). { rewrite map_length. congruence. }
  intros d Hd. rewrite map_length, L in Hd.
  change 0 with (sub_at q (SCst 0)) at 1. rewrite map_nth.
  pose proof (f_equal (fun l => nth_error l d) H) as Q. cbn beta in Q.
  rewrite !nth_error_map in Q.
  destruct (nth_error (seq 0 n) d) as [d'|] eqn:E; [|apply nth_error_None in E; rewrite seq_length in E; lia].
  assert (d' = d).
  { apply (nth_error_nth _ _ O) in E. rewrite seq_nth in E by lia. lia. } subst d'.
  cbn in Q. destruct (nth_error inv d) as [s|] eqn:E2; [|discriminate].
  cbn in Q. injection Q as Q.
  rewrite (nth_error_nth _ _ _ E2).
  destruct (dim_position_spec _ _ _ _ Q) as (j & c & -> & N). cbn.
  rewrite (Hq _ _ _ N) by lia. lia.
Qed.

Lemma drop_csts_map : forall A B (h : A -> B) g f, drop_csts g (map h f) = map h (drop_csts g f).
Proof.
  induction g as [|s g IH]; intros [|x f]; cbn; auto.
  destruct (is_cst s); cbn; congruence.
Qed.

Lemma index_of_lt : forall d l, (index_of d l < length l)%nat -> nth (index_of d l) l O = d /\ In d l.
Proof.
  induction l as [|x l IH]; cbn; [lia|]. intros H.
  destruct (Nat.eqb_spec x d); cbn in *; auto.
  destruct IH as [A B]; [lia|]. auto.
Qed.

Lemma filter_length_seq : forall (h : nat -> bool) n, (n <= length (filter h (seq 0 n)))%nat ->
  filter h (seq 0 n) = seq 0 n.
Proof.
  intros h n H. remember (seq 0 n) as l. assert (L : (length l <= length (filter h l))%nat).
  { subst l. rewrite seq_length. auto. } clear Heql H.
  induction l as [|x l IH]; cbn in *; auto.
  assert (K : (length (filter h l) <= length l)%nat).
  { clear. induction l; cbn; auto. destruct (h a); cbn; lia. }
  destruct (h x); cbn in L; [f_equal; apply IH|]; lia.
Qed.

Theorem transformation_exact : forall n f g T, transformation n f g = Some T -> (n <= length T)%nat ->
  forall e w, length w = n -> map (sub_at e) f = map (sub_at w) g -> map (sub_at e) T = w.
Proof.
  intros n f g T H HL e w Lw Hfg. unfold transformation in H.
  assert (C : forall h inv, map (sub_at e) (map (sub_subst h) inv) = map (sub_at (map (sub_at e) h)) inv).
  { intros h inv. rewrite map_map. apply map_ext. intros s. apply sub_subst_at. }
  assert (A : forall (g' : af) j d c, nth_error g' j = Some (SDim d c) ->
     nth j (map (sub_at w) g') 0 = nth d w 0 + c).
  { intros g' j d c N. apply nth_error_nth. rewrite nth_error_map, N. reflexivity. }
  destruct (af_inverse_of n g) as [inv|] eqn:E.
  - injection H as <-. destruct (inverse_spec _ _ _ E) as [L I].
    rewrite C. apply I; auto. intros j d c N _. rewrite Hfg. auto.
  - destruct (af_inverse_of (length (used_dims n (drop_csts g g))) (compress n (drop_csts g g)))
      as [inv|] eqn:E2; [|discriminate].
    injection H as <-. destruct (inverse_spec _ _ _ E2) as [L I].
    rewrite map_length in HL. rewrite C.
    assert (U : used_dims n (drop_csts g g) = seq 0 n).
    { apply filter_length_seq. unfold used_dims in *. lia. }
    rewrite U, seq_length in *. apply I; auto.
    intros j d c N Hd. rewrite <- drop_csts_map, Hfg, drop_csts_map.
    unfold compress in N. rewrite nth_error_map in N.
    destruct (nth_error (drop_csts g g) j) as [s|] eqn:Es; [|discriminate].
    destruct s as [k c'|a k c'|c']; cbn in N; try discriminate.
    injection N as Ek <-. rewrite U in Ek.
    destruct (index_of_lt k (seq 0 n)) as [Q _]; [rewrite seq_length; lia|].
    rewrite Ek, seq_nth in Q by lia. cbn in Q. subst. rewrite Q. auto.
Qed.

(** * The replacement in a template *)
Definition at_path (t : tmpl) (a : access) : Prop := In a (t_accs t).

Lemma replace_at_ground : forall M st r p e l pre path e' v f,
  In (mkAcc l (pre ++ path) v f) (exp_accs l pre e) ->
  replace_at e path r = Some e' ->
  gval M st (ground p r) = st v (map (sub_at p) f) ->
  gval M st (ground p e') = gval M st (ground p e).
Proof.
  intros M st r p e l. induction e as [v0 f0|s|z|o a IHa|o a IHa b IHb];
    intros pre path e' v f Hin Hr Hv.
  - cbn in Hin. destruct Hin as [Q|[]]. injection Q as Qp <- <-.
    assert (path = []) as ->.
    { apply (f_equal (@length _)) in Qp. rewrite app_length in Qp. destruct path; auto; cbn in Qp; lia. }
    cbn in Hr. injection Hr as <-. exact Hv.
  - destruct Hin.
  - destruct Hin.
  - cbn in Hin. destruct path as [|k path].
    { exfalso. clear - Hin. rewrite app_nil_r in Hin.
      assert (K : forall e pre x, In x (exp_accs l pre e) -> (length pre <= length (a_path x))%nat).
      { induction e; intros pre0 x Hx; cbn in Hx; try contradiction.
        - destruct Hx as [<-|[]]. cbn. lia.
        - apply IHe in Hx. rewrite app_length in Hx. lia.
        - apply in_app_iff in Hx. destruct Hx as [Hx|Hx];
            [apply IHe1 in Hx|apply IHe2 in Hx]; rewrite app_length in Hx; lia. }
      apply K in Hin. rewrite app_length in Hin. cbn in Hin. lia. }
    destruct k as [|k]; cbn in Hr; [|destruct k; discriminate].
    destruct (replace_at a path r) as [a'|] eqn:E; [|discriminate]. injection Hr as <-.
    cbn. f_equal. eapply (IHa (pre ++ [0%nat]) path); eauto.
    rewrite <- app_assoc. exact Hin.
  - cbn in Hin.
    assert (K : forall e pre x, In x (exp_accs l pre e) -> exists q, a_path x = pre ++ q).
    { clear. induction e; intros pre0 x Hx; cbn in Hx; try contradiction.
      - destruct Hx as [<-|[]]. exists []. cbn. rewrite app_nil_r. auto.
      - apply IHe in Hx. destruct Hx as [q ->]. exists (0%nat :: q). rewrite <- app_assoc. auto.
      - apply in_app_iff in Hx. destruct Hx as [Hx|Hx];
          [apply IHe1 in Hx|apply IHe2 in Hx]; destruct Hx as [q ->]; eexists; rewrite <- app_assoc; reflexivity. }
    destruct path as [|k path].
    { exfalso. apply in_app_iff in Hin. destruct Hin as [Hin|Hin]; apply K in Hin; cbn in Hin;
        destruct Hin as [q Q]; apply (f_equal (@length _)) in Q; rewrite !app_length in Q; cbn in Q; lia. }
    destruct k as [|[|k]]; cbn in Hr; try discriminate.
    + destruct (replace_at a path r) as [a'|] eqn:E; [|discriminate]. injection Hr as <-.
      cbn. f_equal. eapply (IHa (pre ++ [0%nat]) path); eauto. rewrite <- app_assoc.
      apply in_app_iff in Hin. destruct Hin as [Hin|Hin]; auto.
      exfalso. apply K in Hin. cbn in Hin. destruct Hin as [q Q].
      rewrite <- app_assoc in Q. apply app_inv_head in Q. discriminate.
    + destruct (replace_at b path r) as [b'|] eqn:E; [|discriminate]. injection Hr as <-.
      cbn. f_equal. eapply (IHb (pre ++ [1%nat]) path); eauto. rewrite <- app_assoc.
      apply in_app_iff in Hin. destruct Hin as [Hin|Hin]; auto.
      exfalso. apply K in Hin. cbn in Hin. destruct Hin as [q Q].
      rewrite <- app_assoc in Q. apply app_inv_head in Q. discriminate.
Qed.

Lemma exp_accs_side : forall l e pre x, In x (exp_accs l pre e) -> a_left x = l.
Proof.
  induction e; intros pre0 x Hx; cbn in Hx; try contradiction.
  - destruct Hx as [<-|[]]. auto.
  - eauto.
  - apply in_app_iff in Hx. destruct Hx; eauto.
Qed.

Lemma replace_access_holds : forall M st t a r t' p, In a (t_accs t) ->
  replace_access t a r = Some t' ->
  gval M st (ground p r) = st (a_var a) (map (sub_at p) (a_fun a)) ->
  t_rank t' = t_rank t /\ (holds_at M st t' p <-> holds_at M st t p).
Proof.
  intros M st t a r t' p Hin Hr Hv. unfold replace_access in Hr. unfold t_accs in Hin.
  destruct a as [l path v f]. cbn [a_left a_path a_var a_fun] in *.
  apply in_app_iff in Hin.
  assert (L : In (mkAcc l path v f) (exp_accs l [] (if l then t_lhs t else t_rhs t))).
  { destruct Hin as [H|H]; pose proof (exp_accs_side _ _ _ _ H) as Q; cbn in Q; subst l; exact H. }
  destruct l.
  - destruct (replace_at (t_lhs t) path r) as [e'|] eqn:E; [|discriminate]. injection Hr as <-.
    split; auto. unfold holds_at. cbn.
    rewrite (replace_at_ground M st r p (t_lhs t) true [] path e' v f); auto. reflexivity.
  - destruct (replace_at (t_rhs t) path r) as [e'|] eqn:E; [|discriminate]. injection Hr as <-.
    split; auto. unfold holds_at. cbn.
    rewrite (replace_at_ground M st r p (t_rhs t) false [] path e' v f); auto. reflexivity.
Qed.

(** The new template at an iteration [p] whose read is written by the iteration
    [w] of the explicit equation. *)
Lemma clone_tmpl_holds : forall M st t idx a w v g l s t' p q,
  clone_tmpl t idx a w g = Some l -> In (s, t') l ->
  In a (t_accs t) -> t_lhs w = EAcc v g -> a_var a = v ->
  length q = t_rank w -> map (sub_at p) (a_fun a) = map (sub_at q) g ->
  holds_at M st w q ->
  t_rank t' = t_rank t /\ (holds_at M st t' p <-> holds_at M st t p).
Proof.
  intros M st t idx a w v g l s t' p q H Hin Ha Hw Hv Hq Hfg Hold.
  unfold clone_tmpl in H.
  destruct (transformation (t_rank w) (a_fun a) g) as [T|] eqn:ET.
  2:{ destruct idx as [[|]|]; try discriminate; injection H as <-; destruct Hin. }
  destruct (Nat.ltb_spec (length T) (t_rank w)) as [|HL]; [discriminate|].
  destruct (replace_access t a (exp_subst T (t_rhs w))) as [t0|] eqn:ER; [|discriminate].
  assert (t' = t0).
  { destruct idx as [[|b bs]|]; injection H as <-; cbn in Hin.
    - destruct Hin as [Q|[]]. congruence.
    - destruct Hin as [Q|Q]; [congruence|]. apply in_map_iff in Q. destruct Q as (x & Q & _). congruence.
    - destruct Hin as [Q|[]]. congruence. } subst t0.
  eapply replace_access_holds; eauto.
  rewrite subst_ground, (transformation_exact _ _ _ _ ET HL p q Hq Hfg).
  unfold holds_at in Hold. rewrite Hw in Hold. cbn in Hold. rewrite <- Hold, Hfg, Hv. reflexivity.
Qed.

Lemma clone_tmpl_idx : forall t idx a w g l s t', clone_tmpl t idx a w g = Some l -> In (s, t') l ->
  t_rank t' = t_rank t /\ (s = [] \/ exists b, s = [b] /\ exists d, idx = Some d /\ In b d).
Proof.
  intros t idx a w g l s t' H Hin. unfold clone_tmpl in H.
  destruct (transformation (t_rank w) (a_fun a) g) as [T|].
  2:{ destruct idx as [[|]|]; try discriminate; injection H as <-; destruct Hin. }
  destruct (length T <? t_rank w)%nat; [discriminate|].
  destruct (replace_access t a (exp_subst T (t_rhs w))) as [t0|] eqn:ER; [|discriminate].
  assert (R : t_rank t0 = t_rank t).
  { unfold replace_access in ER. destruct (a_left a);
      destruct (replace_at _ _ _) in ER; try discriminate; injection ER as <-; reflexivity. }
  destruct idx as [[|b bs]|]; injection H as <-; cbn in Hin.
  - destruct Hin as [Q|[]]. injection Q as <- <-. auto.
  - destruct Hin as [Q|Q].
    + injection Q as <- <-. split; auto. right. exists b. split; auto. exists (b :: bs). cbn. auto.
    + apply in_map_iff in Q. destruct Q as (x & Q & Hx). injection Q as <- <-. split; auto.
      right. exists x. split; auto. exists (b :: bs). cbn. auto.
  - destruct Hin as [Q|[]]. injection Q as <- <-. auto.
Qed.

(** * setIndices *)
Lemma set_indices_idx : forall i s given r, set_indices i s given = Ok r ->
  i_tmpl r = i_tmpl i /\ (r = i /\ bs_eq s (i_idx i) = true \/ i_idx r = s).
Proof.
  intros i s given r H. unfold set_indices in H.
  destruct (bs_eq s (i_idx i)) eqn:E. { injection H as <-. auto. }
  destruct (i_match i) as [[v m]|].
  - apply bind_ok in H. destruct H as (u & _ & H). injection H as <-. auto.
  - injection H as <-. auto.
Qed.

Lemma set_indices_iter : forall i s given r p, set_indices i s given = Ok r ->
  t_rank (i_tmpl i) <> O -> (In p (iterations r) <-> in_boxes p s).
Proof.
  intros i s given r p H R. destruct (set_indices_idx _ _ _ _ H) as [T K].
  unfold iterations. rewrite T. destruct (t_rank (i_tmpl i)) as [|rk]; [contradiction|].
  rewrite in_bs_points. destruct K as [[-> K]| ->]; [|reflexivity].
  symmetry. exact (proj1 (bs_eq_spec _ _) K p).
Qed.

Lemma map_res_in : forall A B (h : A -> res B) l r y, map_res h l = Ok r -> In y r ->
  exists x, In x l /\ h x = Ok y.
Proof.
  induction l as [|x l IH]; intros r y H Hy; cbn in H.
  - injection H as <-. destruct Hy.
  - apply bind_ok in H. destruct H as (z & Hz & H). apply bind_ok in H. destruct H as (r' & Hr & H).
    injection H as <-. destruct Hy as [<-|Hy]; [exists x; cbn; auto|].
    destruct (IH _ _ Hr Hy) as (x' & Hx & E). exists x'. cbn. auto.
Qed.
Lemma map_res_in_conv : forall A B (h : A -> res B) l r x, map_res h l = Ok r -> In x l ->
  exists y, In y r /\ h x = Ok y.
Proof.
  induction l as [|x0 l IH]; intros r x H Hx; cbn in H; [destruct Hx|].
  apply bind_ok in H. destruct H as (z & Hz & H). apply bind_ok in H. destruct H as (r' & Hr & H).
  injection H as <-. destruct Hx as [->|Hx]; [exists z; cbn; auto|].
  destruct (IH _ _ Hr Hx) as (y & Hy & E). exists y. cbn. auto.
Qed.

(** * The iterations replaced *)
Lemma const_at : forall f p q, af_const f = true -> map (sub_at p) f = map (sub_at q) f.
Proof.
  induction f as [|s f IH]; intros p q H; cbn in *; auto.
  apply andb_true_iff in H. destruct H as [H1 H2]. rewrite (IH p q H2).
  destruct s; cbn in *; try discriminate. reflexivity.
Qed.

Lemma af_map_elem : forall rk f s q, in_boxes q (af_map rk f s) ->
  (af_const f = true /\ f <> [] /\ forall p, q = map (sub_at p) f) \/
  (exists p, in_boxes p s /\ q = map (sub_at p) f).
Proof.
  intros rk f s q H. unfold af_map in H. destruct (af_const f) eqn:C.
  - left. destruct (bs_empty s && negb (rk =? 0)%nat).
    { destruct H as (b & [] & _). }
    destruct f as [|s0 f]; [destruct H as (b & [] & _)|].
    destruct H as (b & [<-|[]] & Hb). apply of_point_in in Hb. subst.
    repeat split; try congruence. intros p. apply const_at. auto.
  - right. apply of_points_in, in_map_iff in H. destruct H as (p & <- & Hp).
    apply in_bs_points in Hp. eauto.
Qed.

Lemma af_map_reach : forall rk f s p, in_boxes p s -> f <> [] ->
  in_boxes (map (sub_at p) f) (af_map rk f s).
Proof.
  intros rk f s p Hp Hf. unfold af_map. destruct (af_const f) eqn:C.
  - destruct s as [|b s]. { destruct Hp as (b & [] & _). } cbn [bs_empty andb].
    destruct f as [|s0 f]; [congruence|].
    exists (mdrange_of_point (af_at (s0 :: f) [])). split; [cbn; auto|].
    apply of_point_in. apply const_at. auto.
  - apply of_points_in. apply in_map_iff. exists p. split; auto. apply in_bs_points. auto.
Qed.

Lemma wf_iter : forall i, wf_inst i -> exists p, In p (iterations i).
Proof.
  intros i H. unfold wf_inst, iterations in *. destruct (t_rank (i_tmpl i)) as [|rk].
  - exists []. cbn. auto.
  - destruct H as [H1 H2]. destruct (bs_nonempty _ _ H1 H2) as [p Hp].
    exists p. apply in_bs_points. auto.
Qed.

Lemma wf_iter_length : forall i p, wf_inst i -> In p (iterations i) -> length p = t_rank (i_tmpl i).
Proof.
  intros i p H Hp. unfold wf_inst, iterations in *. destruct (t_rank (i_tmpl i)) as [|rk].
  - destruct Hp as [<-|[]]. reflexivity.
  - apply in_bs_points in Hp. eapply bs_of_length; [apply H|exact Hp].
Qed.

Lemma written_iter : forall x g q, wf_inst x -> subscripts_below (t_rank (i_tmpl x)) g ->
  in_boxes q (af_map (t_rank (i_tmpl x)) g (i_idx x)) ->
  exists p, In p (iterations x) /\ q = map (sub_at p) g.
Proof.
  intros x g q W B H. destruct (af_map_elem _ _ _ _ H) as [(C & _ & K)|(p & Hp & ->)].
  - destruct (wf_iter _ W) as [p Hp]. eauto.
  - exists p. split; auto. unfold iterations, wf_inst in *.
    destruct (t_rank (i_tmpl x)); [rewrite W in Hp; destruct Hp as (b & [] & _)|].
    apply in_bs_points. auto.
Qed.

Lemma not_written : forall x g, wf_inst x -> subscripts_below (t_rank (i_tmpl x)) g ->
  af_map (t_rank (i_tmpl x)) g (i_idx x) = [] -> g = [].
Proof.
  intros x g W B H. destruct g as [|s g]; auto. exfalso.
  unfold af_map, wf_inst in *. destruct (af_const (s :: g)) eqn:C.
  - destruct (t_rank (i_tmpl x)) as [|rk]; cbn in H.
    + rewrite andb_false_r in H. discriminate.
    + destruct W as [_ W]. destruct (i_idx x); [congruence|]. cbn in H. discriminate.
  - destruct (t_rank (i_tmpl x)) as [|rk].
    + assert (K : af_const (s :: g) = true); [|congruence].
      unfold subscripts_below in B. apply forallb_forall. rewrite Forall_forall in B.
      intros y Hy. specialize (B y Hy). destruct y; cbn; auto; lia.
    + destruct W as [W1 W2]. destruct (bs_nonempty _ _ W1 W2) as [p Hp].
      apply in_bs_points in Hp. destruct (bs_points (i_idx x)); [destruct Hp|]. cbn in H. discriminate.
Qed.

Lemma filter_bs_of : forall rk (h : point -> bool) s, bs_of rk s -> (1 <= rk)%nat ->
  bs_of rk (bs_of_points (filter h (bs_points s))).
Proof.
  intros rk h s H Hrk. unfold bs_of, bs_of_points. apply Forall_forall. intros b Hb.
  apply in_map_iff in Hb. destruct Hb as (p & <- & Hp). apply filter_In in Hp. destruct Hp as [Hp _].
  apply in_bs_points in Hp. apply of_point_box; auto. eapply bs_of_length; eauto.
Qed.

Lemma preimage_bs_of : forall rk f accessed s, bs_of rk s -> (1 <= rk)%nat ->
  bs_of rk (af_preimage rk f accessed s).
Proof.
  intros rk f accessed s H Hrk. unfold af_preimage. destruct (af_const f).
  - destruct (_ && _); [constructor|]. destruct (bs_contains _ _); auto. constructor.
  - apply filter_bs_of; auto.
Qed.

Lemma preimage_elem : forall rk f accessed s p, (1 <= rk)%nat -> bs_of rk s ->
  in_boxes p (af_preimage rk f accessed s) -> (exists q, in_boxes q accessed) ->
  in_boxes p s /\ in_boxes (map (sub_at p) f) accessed.
Proof.
  intros rk f accessed s p Hrk Hs H [q Hq]. unfold af_preimage in H. destruct (af_const f) eqn:C.
  - destruct (bs_empty accessed && negb (bs_empty (af_map rk f s))) eqn:E1.
    { destruct H as (b & [] & _). }
    destruct (bs_contains (af_map rk f s) accessed) eqn:E2; [|destruct H as (b & [] & _)].
    split; auto. rewrite bs_contains_spec in E2. specialize (E2 q Hq).
    destruct (af_map_elem _ _ _ _ E2) as [(_ & _ & K)|(p' & Hp' & K)].
    + rewrite <- (K p). auto.
    + rewrite (const_at f p p' C), <- K. auto.
  - apply of_points_in, filter_In in H. destruct H as [H1 H2]. apply in_bs_points in H1.
    apply bs_mem_spec in H2. auto.
Qed.

Lemma reading_spec : forall i c x g d p, wf_inst x ->
  subscripts_below (t_rank (i_tmpl x)) g -> length g = length (a_fun (c_read c)) ->
  t_rank (i_tmpl i) <> O -> bs_of (t_rank (i_tmpl i)) (c_idx c) ->
  reading_indices i c x g = Some d -> in_boxes p d ->
  in_boxes p (c_idx c) /\
  exists q, In q (iterations x) /\ map (sub_at p) (a_fun (c_read c)) = map (sub_at q) g.
Proof.
  intros i c x g d p W B L R C H Hp. unfold reading_indices in H.
  destruct (bs_empty (af_map (t_rank (i_tmpl x)) g (i_idx x))) eqn:E.
  - assert (g = []).
    { eapply not_written; eauto. destruct (af_map _ _ _); [auto|discriminate]. } subst g.
    destruct (bs_empty (c_idx c)); [discriminate|]. injection H as <-. split; auto.
    destruct (wf_iter _ W) as [q Hq]. exists q. split; auto.
    destruct (a_fun (c_read c)); [reflexivity|discriminate].
  - destruct (bs_empty (bs_intersect _ _)); [discriminate|]. injection H as <-.
    assert (K : (1 <= t_rank (i_tmpl i))%nat) by lia.
    pose proof (preimage_bs_of (t_rank (i_tmpl i)) (a_fun (c_read c))
      (af_map (t_rank (i_tmpl x)) g (i_idx x)) (c_idx c) C K) as PB.
    destruct (bs_intersect_spec _ _ _ PB C) as [_ I]. apply I in Hp. destruct Hp as [Hp Hc].
    split; auto.
    assert (NE : exists q, in_boxes q (af_map (t_rank (i_tmpl x)) g (i_idx x))).
    { destruct (wf_iter _ W) as [q0 Hq0].
      destruct g as [|s g]; [cbn in E; destruct (_ && _); discriminate|].
      unfold iterations, wf_inst in *. destruct (t_rank (i_tmpl x)) as [|rk] eqn:Rx.
      - exists (map (sub_at []) (s :: g)). unfold af_map.
        assert (AC : af_const (s :: g) = true).
        { apply forallb_forall. unfold subscripts_below in B. rewrite Forall_forall in B.
          intros y Hy. specialize (B y Hy). destruct y; cbn; auto; lia. }
        rewrite AC, andb_false_r. exists (mdrange_of_point (af_at (s :: g) [])). split; [cbn; auto|].
        apply of_point_in. reflexivity.
      - exists (map (sub_at q0) (s :: g)). apply af_map_reach; [|congruence]. apply in_bs_points. auto. }
    destruct (preimage_elem _ _ _ _ _ K C Hp NE) as [_ Hw].
    destruct (written_iter _ _ _ W B Hw) as (q & Hq & Q). eauto.
Qed.

(** * The equations that replace another one *)
Definition stands_for (M : meaning) (st : nat -> point -> val M) (i n : inst) : Prop :=
  t_rank (i_tmpl n) = t_rank (i_tmpl i) /\
  (t_rank (i_tmpl i) <> O -> bs_of (t_rank (i_tmpl i)) (i_idx n)) /\
  forall p, In p (iterations n) ->
    In p (iterations i) /\ (holds_at M st (i_tmpl n) p <-> holds_at M st (i_tmpl i) p).

Lemma stands_for_holds : forall M st i n, stands_for M st i n -> holds M st i -> holds M st n.
Proof. intros M st i n (_ & _ & H) Hi p Hp. destruct (H p Hp) as [A B]. apply B, Hi, A. Qed.

Lemma stands_for_refl : forall M st i, wf_inst i -> stands_for M st i i.
Proof.
  intros M st i W. split; [auto|]. split; [|tauto].
  unfold wf_inst in W. destruct (t_rank (i_tmpl i)); [congruence|]. intros _. apply W.
Qed.

Lemma reading_bs_of : forall i c x g d, t_rank (i_tmpl i) <> O ->
  bs_of (t_rank (i_tmpl i)) (c_idx c) -> reading_indices i c x g = Some d ->
  bs_of (t_rank (i_tmpl i)) d.
Proof.
  intros i c x g d R C H. unfold reading_indices in H.
  destruct (bs_empty (af_map _ _ _)).
  - destruct (bs_empty (c_idx c)); [discriminate|]. injection H as <-. auto.
  - destruct (bs_empty (bs_intersect _ _)); [discriminate|]. injection H as <-.
    assert (K : (1 <= t_rank (i_tmpl i))%nat) by lia.
    pose proof (preimage_bs_of (t_rank (i_tmpl i)) (a_fun (c_read c))
      (af_map (t_rank (i_tmpl x)) g (i_idx x)) (c_idx c) C K) as PB.
    destruct (bs_intersect_spec _ _ _ PB C) as [A _]. exact A.
Qed.

Lemma clone_replaced_stands : forall M st i c x g ns n,
  wf_inst i -> In (c_read c) (t_accs (i_tmpl i)) ->
  (t_rank (i_tmpl i) <> O -> bs_of (t_rank (i_tmpl i)) (c_idx c) /\
     forall p, in_boxes p (c_idx c) -> in_boxes p (i_idx i)) ->
  t_lhs (i_tmpl x) = EAcc (a_var (c_read c)) g ->
  writes_what_is_read i (c_read c) x -> holds M st x ->
  clone_replaced i (reading_indices i c x g) (c_read c) (i_tmpl x) g = Ok (Some ns) ->
  In n ns -> stands_for M st i n.
Proof.
  intros M st i c x g ns n W A C Lx (Wx & g' & Lx' & Len & B & SC) Hx H Hn.
  assert (g' = g) by congruence. subst g'.
  unfold clone_replaced in H.
  destruct (clone_tmpl (i_tmpl i) (reading_indices i c x g) (c_read c) (i_tmpl x) g) as [l|] eqn:E;
    [|discriminate].
  apply bind_ok in H. destruct H as (ns' & Hm & H). injection H as <-.
  destruct (map_res_in _ _ _ _ _ _ Hm Hn) as ([s t'] & Hin & Hs). cbn [fst snd] in Hs.
  destruct (clone_tmpl_idx _ _ _ _ _ _ _ _ E Hin) as [Rt Hidx].
  destruct (set_indices_idx _ _ _ _ Hs) as [Tn Kn]. cbn [i_tmpl i_idx] in Tn, Kn.
  assert (Rn : t_rank (i_tmpl n) = t_rank (i_tmpl i)) by congruence.
  assert (HP : forall p q, In q (iterations x) ->
     map (sub_at p) (a_fun (c_read c)) = map (sub_at q) g ->
     holds_at M st (i_tmpl n) p <-> holds_at M st (i_tmpl i) p).
  { intros p q Hq Q. rewrite Tn.
    eapply (clone_tmpl_holds M st (i_tmpl i)); eauto. eapply wf_iter_length; eauto. }
  destruct (Nat.eq_dec (t_rank (i_tmpl i)) 0) as [R0|R0].
  - split; auto. split; [contradiction|]. intros p Hp.
    unfold iterations in Hp |- *. rewrite Rn, R0 in Hp. rewrite R0. split; auto.
    destruct Hp as [<-|[]]. destruct (SC R0) as (q & Hq & Q). eapply HP; eauto.
  - destruct (C R0) as [Cb Ci].
    assert (Wi : bs_of (t_rank (i_tmpl i)) (i_idx i) /\ i_idx i <> []).
    { unfold wf_inst in W. destruct (t_rank (i_tmpl i)); [congruence|]. exact W. }
    assert (EI : bs_empty (i_idx i) = false) by (destruct (i_idx i); [tauto|reflexivity]).
    rewrite EI in *.
    split; auto. split.
    + intros _. destruct Kn as [[-> _]| ->]; [apply Wi|].
      destruct Hidx as [->|(b & -> & d & Ed & Hb)]; [constructor|].
      constructor; [|constructor]. eapply Forall_forall; [|exact Hb]. eapply reading_bs_of; eauto.
    + intros p Hp.
      assert (Rc : t_rank t' <> O) by congruence.
      pose proof (proj1 (set_indices_iter (mkInst t' (i_idx i) (i_match i)) _ _ _ p Hs Rc) Hp) as Hps.
      destruct Hidx as [->|(b & -> & d & Ed & Hb)]; [destruct Hps as (? & [] & _)|].
      assert (Hpd : in_boxes p d).
      { destruct Hps as (b' & [<-|[]] & Q). exists b. auto. }
      destruct (reading_spec _ _ _ _ _ _ Wx B Len R0 Cb Ed Hpd) as (Hc & q & Hq & Q).
      split; [|eapply HP; eauto].
      unfold iterations. destruct (t_rank (i_tmpl i)); [congruence|].
      apply in_bs_points. auto.
Qed.

Section Sound.
Variables (M : meaning) (explicit : inst -> option inst).
Hypothesis EX : explicit_ok M explicit.

Lemma explicit_holds : forall st i x, explicit i = Some x -> holds M st i -> holds M st x.
Proof.
  intros st i x E H p Hp. destruct (EX _ _ E) as (I & R & K).
  assert (In p (iterations i)). { unfold iterations in *. rewrite R, I in Hp. exact Hp. }
  auto.
Qed.

Lemma substitute_stands : forall st i c ws acc b ns,
  wf_inst i -> In (c_read c) (t_accs (i_tmpl i)) ->
  (t_rank (i_tmpl i) <> O -> bs_of (t_rank (i_tmpl i)) (c_idx c) /\
     forall p, in_boxes p (c_idx c) -> in_boxes p (i_idx i)) ->
  (forall w x, In w ws -> explicit w = Some x -> writes_what_is_read i (c_read c) x) ->
  (forall w, In w ws -> holds M st w) ->
  (forall n, In n acc -> stands_for M st i n) ->
  substitute explicit i c ws acc = Ok (b, ns) -> forall n, In n ns -> stands_for M st i n.
Proof.
  intros st i c ws. induction ws as [|w ws IH]; intros acc b ns W A C WR WH HA H; cbn in H.
  - injection H as _ <-. auto.
  - destruct (explicit w) as [x|] eqn:E; [|injection H as _ <-; auto].
    destruct (t_lhs (i_tmpl x)) as [v g|s|z|o a|o a b'] eqn:L; try (injection H as _ <-; now auto).
    apply bind_ok in H. destruct H as (r & Hr & H).
    destruct r as [ns0|]; [|injection H as _ <-; auto].
    pose proof (WR w x (or_introl eq_refl) E) as WW.
    assert (L' : t_lhs (i_tmpl x) = EAcc (a_var (c_read c)) g).
    { destruct WW as (_ & g' & Lg & _). rewrite L in Lg. injection Lg as -> _. auto. }
    eapply IH; [exact W|exact A|exact C| | | |exact H].
    + intros w' x' Hw'. apply WR. cbn. auto.
    + intros w' Hw'. apply WH. cbn. auto.
    + intros n Hn. apply in_app_iff in Hn. destruct Hn as [Hn|Hn]; auto.
      eapply clone_replaced_stands; eauto. eapply explicit_holds; eauto. apply WH. cbn. auto.
Qed.

Theorem solve_stands : forall st l cycle, reading_cycle explicit l cycle ->
  forall b ns, solve explicit l cycle = Ok (b, ns) ->
  (forall c i, In c (tl cycle) -> op_of l (c_op c) = Some i -> holds M st i) ->
  forall f i, hd_error cycle = Some f -> op_of l (c_op f) = Some i ->
  forall n, In n ns -> stands_for M st i n.
Proof.
  intros st l cycle RC. induction RC as [c i0 O0 W0|c rest i0 O0 W0 NE A C WR RC IH];
    intros b ns H HH f i Hf Hi n Hn; cbn in Hf; injection Hf as <-;
    assert (i0 = i) by congruence; subst i0.
  - cbn in H. rewrite Hi in H. cbn in H. injection H as _ <-. destruct Hn as [<-|[]].
    apply stands_for_refl. auto.
  - destruct rest as [|c2 rest]; [congruence|].
    change (solve explicit l (c :: c2 :: rest)) with
      (r <- solve explicit l (c2 :: rest) ;;
       if fst r then i <- of_option (op_of l (c_op c)) ;; substitute explicit i c (snd r) []
       else Ok (false, [])) in H.
    apply bind_ok in H. destruct H as ([b2 ws] & Hs & H). cbn [fst snd] in H.
    destruct b2; [|injection H as _ <-; destruct Hn].
    rewrite Hi in H. cbn [of_option bind] in H.
    eapply (substitute_stands st i c ws [] b ns); [exact W0|exact A|exact C| | |intros n0 []|exact H|exact Hn].
    + intros w x Hw Ex. eapply WR; eauto.
    + intros w Hw.
      assert (OI : exists i2, op_of l (c_op c2) = Some i2) by (inversion RC; eauto).
      destruct OI as [i2 O2]. eapply (stands_for_holds M st i2).
      * eapply (IH true ws Hs); [|reflexivity|exact O2|exact Hw].
        intros c' i' Hc'. apply HH. cbn. auto.
      * apply (HH c2); cbn; auto.
Qed.
End Sound.

(** The equations made by a replacement have the iterations asked for. *)
Theorem clone_replaced_iterations : forall i d a w g ns,
  (1 <= t_rank (i_tmpl i))%nat -> wf_inst i -> d <> [] ->
  clone_replaced i (Some d) a w g = Ok (Some ns) ->
  forall p, in_boxes p d <-> exists n, In n ns /\ In p (iterations n).
Proof.
  intros i d a w g ns L W ND H p. unfold clone_replaced in H.
  destruct (clone_tmpl (i_tmpl i) (Some d) a w g) as [l|] eqn:E; [|discriminate].
  apply bind_ok in H. destruct H as (ns' & Hm & H). injection H as ->.
  assert (NI : bs_empty (i_idx i) = false).
  { unfold wf_inst in W. destruct (t_rank (i_tmpl i)); [lia|]. destruct W as [_ W].
    destruct (i_idx i); [congruence|reflexivity]. }
  assert (LS : exists t', l = map (fun b => ([b], t')) d /\ t_rank t' = t_rank (i_tmpl i)).
  { pose proof E as E'. unfold clone_tmpl in E. destruct (transformation (t_rank w) (a_fun a) g) as [T|].
    - destruct (length T <? t_rank w)%nat; [discriminate|].
      destruct (replace_access (i_tmpl i) a (exp_subst T (t_rhs w))) as [t'|]; [|discriminate].
      destruct d as [|b d]; [congruence|]. injection E as <-. exists t'. split; [reflexivity|].
      apply (clone_tmpl_idx _ _ _ _ _ _ [b] t' E'). cbn. auto.
    - destruct d; [congruence|discriminate]. }
  destruct LS as (t' & -> & RT).
  split.
  - intros (b & Hb & Hp).
    destruct (map_res_in_conv _ _ _ _ _ ([b], t') Hm) as (n & Hn & Hs).
    { apply in_map_iff. eauto. }
    exists n. split; auto. rewrite NI in Hs. cbn [fst snd] in Hs.
    apply (set_indices_iter _ _ _ _ p Hs); [cbn; lia|]. exists b. cbn. auto.
  - intros (n & Hn & Hp). destruct (map_res_in _ _ _ _ _ n Hm Hn) as (x & Hx & Hs).
    apply in_map_iff in Hx. destruct Hx as (b & <- & Hb). rewrite NI in Hs. cbn [fst snd] in Hs.
    apply (set_indices_iter _ _ _ _ p Hs) in Hp; [|cbn; lia].
    destruct Hp as (c & [<-|[]] & Hp). exists b. auto.
Qed.
