(** Proofs about array constructors. *)

From Coq Require Import List Arith ZArith Bool Lia.
Import ListNotations.
From Verif Require Import ArrayGenModel ArrayGenSpec.

Section Proofs.
Context {K : Type} (inj : Z -> K).

Definition aexp_rect' (P : aexp K -> Prop) (Hl : forall l, P (Leaf l))
  (Hc : forall l, Forall P l -> P (Cons l)) (Hf : forall is_ b, P b -> P (For is_ b)) :
  forall a, P a :=
  fix go (a : aexp K) : P a :=
    match a with
    | Leaf l => Hl l
    | Cons l => Hc l ((fix gos (l : list (aexp K)) : Forall P l :=
                         match l with [] => Forall_nil _ | c :: l' => Forall_cons _ (go c) (gos l') end) l)
    | For is_ b => Hf is_ b (go b)
    end.

(** ** The values in order *)

Fixpoint flat (a : aexp K) : list (leaf K) :=
  match a with
  | Leaf l => [l]
  | Cons l => concat (map flat l)
  | For is_ b => concat (repeat (flat b) (copies is_))
  end.

Lemma drain_list : forall l, 
  Forall (fun a => forall g rest s2, drain (steps a + g) (a :: rest) s2 = drain g rest (flat a ++ s2)) l ->
  forall g rest s2, drain (list_sum (map steps l) + g) (l ++ rest) s2
    = drain g rest (concat (map flat (rev l)) ++ s2).
Proof.
  induction l as [| a l IH]; intros H g rest s2; [reflexivity |].
  inversion H as [| ? ? H1 H2]; subst. cbn [map list_sum fold_right app rev].
  change (fold_right Nat.add 0 (map steps l)) with (list_sum (map steps l)).
  rewrite <- Nat.add_assoc, H1, IH by assumption.
  rewrite map_app, concat_app. cbn [map concat]. rewrite app_nil_r, app_assoc. reflexivity.
Qed.

Lemma drain_one : forall a g rest s2, drain (steps a + g) (a :: rest) s2 = drain g rest (flat a ++ s2).
Proof.
  induction a as [l | l IH | is_ b IH] using aexp_rect'; intros g rest s2.
  - reflexivity.
  - cbn [steps Nat.add drain flat].
    replace (list_sum (map steps l)) with (list_sum (map steps (rev l))).
    + rewrite drain_list by (apply Forall_rev; exact IH). rewrite rev_involutive. reflexivity.
    + clear. induction l as [| a l IH]; [reflexivity |]. cbn [rev map].
      rewrite map_app, list_sum_app, IH. change (list_sum (map steps [a])) with (steps a + 0).
      change (list_sum (steps a :: map steps l)) with (steps a + list_sum (map steps l)). lia.
  - cbn [steps Nat.add drain flat]. generalize (copies is_) as n. intros n.
    assert (E : n * steps b = list_sum (map steps (repeat b n))).
    { induction n as [| n IHn]; [reflexivity |]. cbn. rewrite IHn. reflexivity. }
    rewrite E, drain_list.
    + do 2 f_equal.
      assert (Q : forall A (x : A) m, rev (repeat x m) = repeat x m).
      { intros A x m. induction m as [| m IHm]; [reflexivity |]. cbn. rewrite IHm.
        clear. induction m as [| m IHm]; [reflexivity |]. cbn. rewrite IHm. reflexivity. }
      rewrite Q. clear. induction n as [| n IHn]; [reflexivity |]. cbn. rewrite IHn. reflexivity.
    + apply Forall_forall. intros a Ha. apply repeat_spec in Ha. subst. exact IH.
Qed.

Lemma drain_flat : forall a, drain (steps a) [a] [] = flat a.
Proof.
  intros a. generalize (drain_one a 0 [] []). rewrite Nat.add_0_r, app_nil_r. cbn [drain]. exact (fun e => e).
Qed.

Lemma flat_leaves : forall a l, In l (flat a) -> In l (leaves a).
Proof.
  induction a as [l0 | l0 IH | is_ b IH] using aexp_rect'; intros l H.
  - exact H.
  - cbn in *. apply in_concat in H. destruct H as (x & Hx & Hl). apply in_map_iff in Hx.
    destruct Hx as (c & <- & Hc). apply in_flat_map. exists c. split; [exact Hc |].
    rewrite Forall_forall in IH. apply IH; assumption.
  - cbn in *. apply in_concat in H. destruct H as (x & Hx & Hl). apply repeat_spec in Hx. subst. auto.
Qed.

(** ** Sizes *)

Definition prod (ds : list nat) : nat := fold_right Nat.mul 1 ds.

Lemma prod_cons : forall x a, prod (x :: a) = x * prod a.
Proof. reflexivity. Qed.

Lemma prod_app : forall a b, prod (a ++ b) = prod a * prod b.
Proof.
  induction a as [| x a IH]; intros b; [change (prod []) with 1; cbn [app]; lia |]. cbn [app]. rewrite !prod_cons, IH. apply Nat.mul_assoc.
Qed.

Lemma prod_rev : forall a, prod (rev a) = prod a.
Proof. induction a as [| x a IH]; [reflexivity |]. cbn [rev]. rewrite prod_app, IH, !prod_cons. change (prod []) with 1. lia. Qed.

Lemma counting_size : forall i n, i_begin i = 1%Z -> i_step i = 1%Z -> (0 <= i_end i)%Z ->
  has_size i n -> i_end i = Z.of_nat n.
Proof.
  intros i n B S0 E H. unfold has_size, in_range in H. rewrite B, S0 in H.
  destruct (Z.lt_trichotomy (i_end i) (Z.of_nat n)) as [L | [L | L]]; [| exact L |].
  - destruct n as [| n]; [lia |]. destruct (H n) as (H1 & _). specialize (H1 ltac:(lia)). lia.
  - destruct (H n) as (_ & H1). assert (n < n) by (apply H1; lia). lia.
Qed.

Lemma ends_sizes : forall is_ ns, Forall2 has_size is_ ns ->
  (forall i, In i is_ -> i_begin i = 1%Z /\ i_step i = 1%Z /\ (0 <= i_end i)%Z) ->
  map i_end is_ = map Z.of_nat ns.
Proof.
  induction 1 as [| i n is_ ns H F IH]; intros G; [reflexivity |]. cbn. f_equal.
  - destruct (G i (or_introl eq_refl)) as (B & S0 & E). apply counting_size; assumption.
  - apply IH. intros j Hj. apply G. right. exact Hj.
Qed.

Lemma copies_prod : forall is_ ns, map i_end is_ = map Z.of_nat ns -> copies is_ = prod ns.
Proof.
  intros is_ ns H. unfold copies.
  assert (Q : forall m, fold_left (fun n i => (n * i_end i)%Z) is_ (Z.of_nat m) = Z.of_nat (m * prod ns)).
  { revert ns H. induction is_ as [| i is_ IH]; intros [| n ns] H m; cbn in H; try discriminate.
    - cbn. rewrite Nat.mul_1_r. reflexivity.
    - injection H as H1 H2. cbn [fold_left]. rewrite H1, <- Nat2Z.inj_mul, (IH ns H2), prod_cons. f_equal. lia. }
  specialize (Q 1). cbn [Z.of_nat Pos.of_succ_nat] in Q. rewrite Q, Nat2Z.id. lia.
Qed.

Lemma shape_ok : forall (a : aexp K) dims, shaped a dims -> counting a -> shape a = Some (map Z.of_nat dims).
Proof.
  induction a as [l | l IH | is_ b IH] using aexp_rect'; intros dims Hs C; inversion Hs as [| | c l' ds HH | is' b' ns ds HF Hb]; subst.
  - reflexivity.
  - reflexivity.
  - cbn [shape]. inversion IH as [| ? ? I1 I2]; subst. rewrite (I1 ds).
    + reflexivity.
    + apply HH. left. reflexivity.
    + intros i Hi. apply C. cbn. apply in_or_app. left. exact Hi.
  - cbn [shape].
    assert (E : forallb (fun i => (i_begin i =? 1)%Z && (i_step i =? 1)%Z) is_ = true).
    { apply forallb_forall. intros i Hi. destruct (C i) as (B & S0 & _); [cbn; apply in_or_app; auto |].
      rewrite B, S0. reflexivity. }
    rewrite E, (IH ds Hb) by (intros i Hi; apply C; cbn; apply in_or_app; auto).
    cbn [option_map]. rewrite map_app, !map_rev, (ends_sizes is_ ns); [reflexivity | exact HF |].
    intros i Hi. apply C. cbn. apply in_or_app. auto.
Qed.

Lemma uniform_concat : forall A (ll : list (list A)) p, Forall (fun l => length l = p) ll ->
  length (concat ll) = length ll * p.
Proof.
  induction 1 as [| l ll H F IH]; [reflexivity |]. cbn. rewrite app_length, H, IH. reflexivity.
Qed.

Lemma uniform_nth : forall A (ll : list (list A)) p, Forall (fun l => length l = p) ll ->
  forall i r, r < p -> nth_error (concat ll) (i * p + r) = nth_error (nth i ll []) r.
Proof.
  induction 1 as [| l ll H F IH]; intros i r Hr.
  - cbn [concat]. destruct (i * p + r), i, r; reflexivity.
  - destruct i as [| i]; cbn [concat nth].
    + cbn. apply nth_error_app1. lia.
    + rewrite nth_error_app2 by lia. rewrite <- IH by exact Hr. f_equal. lia.
Qed.

Lemma flat_length : forall (a : aexp K) dims, shaped a dims -> counting a -> length (flat a) = prod dims.
Proof.
  induction a as [l | l IH | is_ b IH] using aexp_rect'; intros dims Hs C; inversion Hs as [| | c l' ds HH | is' b' ns ds HF Hb]; subst.
  - reflexivity.
  - reflexivity.
  - cbn [flat]. rewrite (uniform_concat _ _ (prod ds)).
    + rewrite map_length. reflexivity.
    + apply Forall_forall. intros x Hx. apply in_map_iff in Hx. destruct Hx as (d & <- & Hd).
      rewrite Forall_forall in IH. apply IH; [exact Hd | apply HH; exact Hd |].
      intros i Hi. apply C. cbn [indices]. apply in_flat_map. eauto.
  - cbn [flat]. rewrite (uniform_concat _ _ (prod ds)).
    + rewrite repeat_length, prod_app, prod_rev, (copies_prod is_ ns); [reflexivity |].
      apply ends_sizes; [exact HF |]. intros i Hi. apply C. cbn. apply in_or_app. auto.
    + apply Forall_forall. intros x Hx. apply repeat_spec in Hx. subst.
      apply IH; [exact Hb |]. intros i Hi. apply C. cbn. apply in_or_app. auto.
Qed.

Lemma row_major_lt : forall dims idx, inside dims idx -> row_major dims idx < prod dims.
Proof.
  induction dims as [| d ds IH]; intros idx H; inversion H as [| i ? is_ ? Hi Hr]; subst; [cbn; lia |].
  cbn [row_major prod fold_right]. fold (prod ds). specialize (IH is_ Hr). nia.
Qed.

Lemma row_major_app : forall d1 i1 d2 i2, length d1 = length i1 ->
  row_major (d1 ++ d2) (i1 ++ i2) = row_major d1 i1 * prod d2 + row_major d2 i2.
Proof.
  induction d1 as [| d d1 IH]; intros [| i i1] d2 i2 H; cbn in H; try discriminate; [reflexivity |].
  cbn [app row_major]. rewrite IH by lia. fold (prod (d1 ++ d2)) (prod d1). rewrite prod_app. nia.
Qed.

(** ** Elements *)

Lemma Forall2_len : forall A B (R : A -> B -> Prop) l l', Forall2 R l l' -> length l = length l'.
Proof. induction 1 as [| x y l l' H F IH]; [reflexivity |]. cbn. rewrite IH. reflexivity. Qed.

Lemma bind_rest : forall is_ i1 i2 r, length is_ = length i1 ->
  exists r', bind inj is_ (i1 ++ i2) r = Some (r', i2)
    /\ forall x, ~ In x (map i_var is_) -> r' x = r x.
Proof.
  induction is_ as [| i is_ IH]; intros [| k i1] i2 r H; cbn in H; try discriminate.
  - exists r. split; [reflexivity | auto].
  - cbn [app bind]. injection H as H. destruct (IH i1 i2 (set r (i_var i) (inj (i_begin i + Z.of_nat k * i_step i)%Z)) H) as (r' & E & Q).
    exists r'. split; [exact E |]. intros x Hx. rewrite Q by (intros Hi; apply Hx; right; exact Hi).
    unfold set. destruct (Nat.eqb_spec x (i_var i)) as [-> |]; [| reflexivity].
    exfalso. apply Hx. left. reflexivity.
Qed.

Lemma flat_elem : forall (a : aexp K) dims, shaped a dims -> counting a -> index_free a ->
  (forall l, In l (leaves a) -> reads_only l) ->
  forall rho r, (forall l x, In l (leaves a) -> In x (l_vars l) -> r x = rho x) ->
  forall idx, inside dims idx ->
  exists l, nth_error (flat a) (row_major dims idx) = Some l /\ elem inj a r idx = Some (l_val l rho).
Proof.
  induction a as [l | l IH | is_ b IH] using aexp_rect'; intros dims Hs C N R rho r A idx Hi;
    inversion Hs as [| | c l' ds HH | is' b' ns ds HF Hb]; subst.
  - inversion Hi. subst. exists (mkLeaf vs 0 v). split; [reflexivity |]. cbn [elem]. f_equal.
    apply R; [left; reflexivity |]. intros x Hx. apply (A (mkLeaf vs 0 v) x); [left; reflexivity | exact Hx].
  - inversion Hi as [| i ? is_ ? Hlt]; subst. lia.
  - inversion Hi as [| i ? is_ ? Hlt Hrest]; subst.
    assert (Hn : exists d, nth_error (c :: l') i = Some d).
    { destruct (nth_error (c :: l') i) eqn:E; [eauto |]. apply nth_error_None in E. cbn in E. lia. }
    destruct Hn as (d & Hd). pose proof (nth_error_In _ _ Hd) as Hin.
    rewrite Forall_forall in IH.
    assert (C' : forall e, In e (c :: l') -> counting e).
    { intros e He j Hj. apply C. cbn [indices]. apply in_flat_map. eauto. }
    assert (Lv : forall e l, In e (c :: l') -> In l (leaves e) -> In l (leaves (Cons (c :: l')))).
    { intros e l He Hl. cbn [leaves]. apply in_flat_map. eauto. }
    destruct (IH d Hin ds (HH d Hin) (C' d Hin)) with (rho := rho) (r := r) (idx := is_) as (l & H1 & H2).
    + intros l j Hl Hj. apply N; [eapply Lv; eauto |]. cbn [indices]. apply in_flat_map. eauto.
    + intros l Hl. apply R. eapply Lv; eauto.
    + intros l x Hl Hx. apply (A l x); [eapply Lv; eauto | exact Hx].
    + exact Hrest.
    + exists l. split.
      * cbn [flat row_major]. fold (prod ds).
        rewrite (uniform_nth _ _ (prod ds)).
        -- rewrite (nth_indep _ [] (flat d)) by (rewrite map_length; apply nth_error_Some; congruence).
           rewrite map_nth, (nth_error_nth _ _ _ Hd). exact H1.
        -- apply Forall_forall. intros x Hx. apply in_map_iff in Hx. destruct Hx as (e & <- & He).
           apply flat_length; [apply HH; exact He | apply C'; exact He].
        -- apply row_major_lt. exact Hrest.
      * cbn [elem]. rewrite <- H2.
        rewrite (nth_indep _ None ((fun e => elem inj e r is_) d)) by (rewrite map_length; apply nth_error_Some; congruence).
        rewrite (map_nth (fun e => elem inj e r is_)), (nth_error_nth _ _ _ Hd). reflexivity.
  - unfold inside in Hi. apply Forall2_app_inv_r in Hi. destruct Hi as (i1 & i2 & H1 & H2 & ->).
    assert (L1 : length (rev ns) = length i1) by (symmetry; eapply Forall2_len; exact H1).
    assert (L2 : length (rev is_) = length i1).
    { rewrite <- L1, !rev_length. eapply Forall2_len; exact HF. }
    destruct (bind_rest (rev is_) i1 i2 r L2) as (r' & E & Q).
    assert (Cb : counting b) by (intros i Hi; apply C; cbn; apply in_or_app; auto).
    destruct (IH ds Hb Cb) with (rho := rho) (r := r') (idx := i2) as (l & F1 & F2).
    + intros l j Hl Hj. apply N; [exact Hl |]. cbn. apply in_or_app. auto.
    + exact R.
    + intros l x Hl Hx. rewrite Q; [apply (A l x Hl Hx) |]. intros Hin. apply in_map_iff in Hin.
      destruct Hin as (j & <- & Hj). apply in_rev in Hj. apply (N l j Hl); [cbn; apply in_or_app; auto | exact Hx].
    + exact H2.
    + exists l. split.
      * cbn [flat]. rewrite row_major_app by exact L1.
        assert (Ec : copies is_ = prod ns).
        { apply copies_prod, ends_sizes; [exact HF |]. intros i Hi. apply C. cbn. apply in_or_app. auto. }
        rewrite (uniform_nth _ _ (prod ds)).
        -- assert (Hr : row_major (rev ns) i1 < copies is_).
           { rewrite Ec, <- prod_rev. apply row_major_lt. exact H1. }
           assert (Z0 : forall A (x : A) d m q, q < m -> nth q (repeat x m) d = x).
           { intros A0 x d m. induction m as [| m IHm]; intros [| q] Hq; cbn; try lia; [reflexivity |].
             apply IHm. lia. }
           rewrite Z0 by exact Hr. exact F1.
        -- apply Forall_forall. intros x Hx. apply repeat_spec in Hx. subst. apply flat_length; assumption.
        -- apply row_major_lt. exact H2.
      * cbn [elem]. rewrite E. exact F2.
Qed.

(** ** The whole *)

Lemma all_some_map : forall A B (f : A -> option B) (g : A -> B) l,
  (forall x, In x l -> f x = Some (g x)) -> all_some (map f l) = Some (map g l).
Proof.
  induction l as [| x l IH]; intros H; [reflexivity |]. cbn. rewrite H by (left; reflexivity).
  rewrite IH by (intros y Hy; apply H; right; exact Hy). reflexivity.
Qed.

Lemma shaped_leaves : forall (a : aexp K) dims, shaped a dims -> forall l, In l (leaves a) -> l_rank l = 0.
Proof.
  induction a as [l0 | l0 IH | is_ b IH] using aexp_rect'; intros dims Hs l Hl; inversion Hs as [| | c l' ds HH | is' b' ns ds HF Hb]; subst.
  - destruct Hl as [<- | []]. reflexivity.
  - destruct Hl.
  - cbn [leaves] in Hl. apply in_flat_map in Hl. destruct Hl as (d & Hd & Hl).
    rewrite Forall_forall in IH. exact (IH d Hd ds (HH d Hd) l Hl).
  - exact (IH ds Hb l Hl).
Qed.

Lemma sizes_nat : forall dims, sizes (map Z.of_nat dims) = Some dims.
Proof.
  intros dims. unfold sizes.
  assert (E : forallb (fun d => (0 <=? d)%Z) (map Z.of_nat dims) = true).
  { apply forallb_forall. intros d Hd. apply in_map_iff in Hd. destruct Hd as (n & <- & _). apply Z.leb_le. lia. }
  rewrite E. f_equal. rewrite map_map. rewrite <- (map_id dims) at 2. apply map_ext. apply Nat2Z.id.
Qed.

Lemma lower_leaf_ok : forall declared rho l, (forall x, In x (l_vars l) -> declared x = true) ->
  lower_leaf declared rho l = Some (l_rank l, l_val (K := K) l rho).
Proof.
  intros declared rho l H. unfold lower_leaf.
  rewrite (proj2 (forallb_forall declared (l_vars l))) by exact H. reflexivity.
Qed.

Lemma lower_elements : forall declared rho (a : aexp K) dims,
  shaped a dims -> counting a -> index_free a -> closed declared a ->
  (forall l, In l (leaves a) -> reads_only l) ->
  is_array inj rho a dims
    (match shape a with
     | Some s => match lower_values declared rho a with Some vs => from_elements s vs | None => None end
     | None => None
     end).
Proof.
  intros declared rho a dims Hs C N D R. rewrite (shape_ok a dims Hs C).
  unfold lower_values. rewrite drain_flat.
  rewrite (all_some_map _ _ _ (fun l => (l_rank l, l_val l rho))).
  2: { intros l Hl. apply lower_leaf_ok. intros x Hx. apply (D l x); [apply flat_leaves; exact Hl | exact Hx]. }
  unfold from_elements. rewrite sizes_nat.
  assert (E1 : forallb (fun v : nat * K => fst v =? 0) (map (fun l => (l_rank l, l_val l rho)) (flat a)) = true).
  { apply forallb_forall. intros v Hv. apply in_map_iff in Hv. destruct Hv as (l & <- & Hl). cbn.
    rewrite (shaped_leaves a dims Hs l) by (apply flat_leaves; exact Hl). reflexivity. }
  rewrite E1, map_length, (flat_length a dims Hs C). fold (prod dims). rewrite Nat.eqb_refl. cbn [andb].
  eexists. split; [reflexivity |]. intros idx Hi.
  destruct (flat_elem a dims Hs C N R rho rho (fun _ _ _ _ => eq_refl) idx Hi) as (l & H1 & H2).
  rewrite nth_error_map, H1. cbn [option_map snd]. split; [symmetry; exact H2 | eauto].
Qed.

Lemma lower_ok : forall declared rho (a : aexp K) dims,
  (forall l, a <> Leaf l) ->
  shaped a dims -> counting a -> index_free a -> closed declared a ->
  (forall l, In l (leaves a) -> reads_only l) ->
  is_array inj rho a dims (lower_gen declared rho a).
Proof.
  intros declared rho a dims NL Hs C N D R.
  pose proof (lower_elements declared rho a dims Hs C N D R) as G.
  destruct a as [l | l | is_ b]; [exfalso; eapply NL; reflexivity | exact G |].
  destruct b as [l | l | is' b']; [| exact G | exact G].
  cbn [lower_gen]. rewrite (shape_ok _ dims Hs C).
  rewrite lower_leaf_ok by (intros x Hx; apply (D l x); [left; reflexivity | exact Hx]).
  unfold splat. rewrite sizes_nat. cbn [fst snd].
  rewrite (shaped_leaves _ dims Hs l) by (left; reflexivity). cbn [Nat.eqb].
  eexists. split; [reflexivity |]. intros idx Hi.
  destruct (flat_elem _ dims Hs C N R rho rho (fun _ _ _ _ => eq_refl) idx Hi) as (l' & H1 & H2).
  apply nth_error_In, flat_leaves in H1. destruct H1 as [<- | []]. cbn [snd]. split; [symmetry; exact H2 | eauto].
Qed.

(** ** What is wrong *)

Lemma index_outside : forall declared rho x n l,
  (0 <= n)%Z -> l_rank l = 0 -> In x (l_vars l) ->
  (declared x = false -> lower_gen declared rho (For [mkInd x 1 1 n] (Leaf l)) = None)
  /\ ((forall y, In y (l_vars l) -> declared y = true) ->
      exists f, lower_gen declared rho (For [mkInd x 1 1 n] (Leaf l)) = Some ([Z.to_nat n], f)
        /\ forall idx, f idx = Some (l_val (K := K) l rho)).
Proof.
  intros declared rho x n l Hn Hr Hx. split.
  - intros Hd. cbn. unfold lower_leaf.
    destruct (forallb declared (l_vars l)) eqn:E; [| reflexivity].
    rewrite forallb_forall in E. rewrite (E x Hx) in Hd. discriminate.
  - intros Hd. cbn. rewrite lower_leaf_ok by exact Hd. unfold splat, sizes. cbn.
    rewrite (proj2 (Z.leb_le 0 n) Hn), Hr. cbn. eexists. split; reflexivity.
Qed.

Lemma range_refused : forall declared rho is_ b i, In i is_ ->
  i_begin i <> 1%Z \/ i_step i <> 1%Z \/ (i_end i < 0)%Z ->
  lower_gen (K := K) declared rho (For is_ b) = None.
Proof.
  intros declared rho is_ b i Hi H.
  assert (G : forall s, shape (For is_ b) = Some s -> sizes s = None).
  { intros s E. cbn [shape] in E. destruct (forallb _ is_) eqn:F; [| discriminate].
    rewrite forallb_forall in F. specialize (F i Hi). apply andb_prop in F. destruct F as (F1 & F2).
    apply Z.eqb_eq in F1, F2. destruct H as [H | [H | H]]; try contradiction.
    destruct (shape b) as [t |]; [| discriminate]. cbn in E. injection E as <-.
    unfold sizes. destruct (forallb _ (map i_end (rev is_) ++ t)) eqn:Q; [| reflexivity].
    rewrite forallb_forall in Q. specialize (Q (i_end i)).
    assert (Hin : In (i_end i) (map i_end (rev is_) ++ t)).
    { apply in_or_app. left. apply in_map. apply -> in_rev. exact Hi. }
    specialize (Q Hin). apply Z.leb_le in Q. lia. }
  destruct b as [l | l | is' b']; cbn [lower_gen].
  - destruct (shape _) as [s |] eqn:E; [| reflexivity]. destruct (lower_leaf declared rho l); [| reflexivity].
    unfold splat. rewrite (G s eq_refl). reflexivity.
  - destruct (shape _) as [s |] eqn:E; [| reflexivity]. destruct (lower_values declared rho _); [| reflexivity].
    unfold from_elements. rewrite (G s eq_refl). reflexivity.
  - destruct (shape _) as [s |] eqn:E; [| reflexivity]. destruct (lower_values declared rho _); [| reflexivity].
    unfold from_elements. rewrite (G s eq_refl). reflexivity.
Qed.

Lemma ragged : forall declared rho (r : list K) rs,
  r <> [] -> length (concat (r :: rs)) = S (length rs) * length r ->
  exists f, lower_gen declared rho (Cons (map row (r :: rs))) = Some ([S (length rs); length r], f)
    /\ forall i j, f [i; j] = nth_error (concat (r :: rs)) (i * length r + j).
Proof.
  intros declared rho r rs Hr Hl.
  assert (S1 : shape (Cons (map row (r :: rs))) = Some (map Z.of_nat [S (length rs); length r])).
  { destruct r as [| v r]; [congruence |]. cbn. rewrite !map_length. reflexivity. }
  assert (V : lower_values declared rho (Cons (map row (r :: rs))) = Some (map (pair 0) (concat (r :: rs)))).
  { unfold lower_values. rewrite drain_flat. cbn [flat]. rewrite map_map.
    generalize (r :: rs) as ll. intros ll. induction ll as [| l ll IH]; [reflexivity |].
    cbn [map concat]. rewrite !map_app.
    induction l as [| v l IHl]; [exact IH |]. cbn in IHl |- *. rewrite IHl. reflexivity. }
  assert (E : lower_gen declared rho (Cons (map row (r :: rs)))
              = from_elements (map Z.of_nat [S (length rs); length r]) (map (pair 0) (concat (r :: rs)))).
  { unfold lower_gen. rewrite S1, V. reflexivity. }
  rewrite E. unfold from_elements. rewrite sizes_nat.
  assert (Q : forallb (fun v : nat * K => fst v =? 0) (map (pair 0) (concat (r :: rs))) = true).
  { apply forallb_forall. intros v Hv. apply in_map_iff in Hv. destruct Hv as (k & <- & _). reflexivity. }
  rewrite Q, map_length, Hl. cbn [fold_right]. rewrite Nat.mul_1_r, Nat.eqb_refl. cbn [andb].
  eexists. split; [reflexivity |]. intros i j. cbn [row_major fold_right].
  rewrite Nat.mul_1_r, Nat.mul_1_r, Nat.add_0_r, nth_error_map.
  destruct (nth_error (concat (r :: rs)) (i * length r + j)); reflexivity.
Qed.

Lemma array_leaf : forall declared rho c l, l_rank c <> 0 ->
  lower_gen (K := K) declared rho (Cons (Leaf c :: l)) = None.
Proof.
  intros declared rho c l H. unfold lower_gen. destruct (shape _) as [s |]; [| reflexivity].
  destruct (lower_values declared rho (Cons (Leaf c :: l))) as [vs |] eqn:E; [| reflexivity].
  unfold lower_values in E. rewrite drain_flat in E. cbn [flat map concat app] in E.
  cbn [all_some] in E. unfold lower_leaf in E at 1.
  destruct (forallb declared (l_vars c)); [| discriminate].
  destruct (all_some (map (lower_leaf declared rho) (concat (map flat l)))); [| discriminate].
  injection E as <-. unfold from_elements. destruct (sizes s); [| reflexivity]. cbn [forallb fst].
  apply Nat.eqb_neq in H. rewrite H. reflexivity.
Qed.

Lemma fill_ok : forall v dims,
  exists f, lower_fill (0, v) (map Z.of_nat dims) = Some (dims, f) /\ forall idx, f idx = Some (v : K).
Proof. intros v dims. unfold lower_fill, splat. rewrite sizes_nat. eexists. split; reflexivity. Qed.

End Proofs.

Lemma size_dim_ok : forall dims i, 1 <= i <= length dims ->
  size_dim dims (Z.of_nat i) = nth_error dims (i - 1) /\ size_dim dims (Z.of_nat i) <> None.
Proof.
  intros dims i H. unfold size_dim.
  rewrite (proj2 (Z.leb_le 1 (Z.of_nat i))) by lia.
  replace (Z.to_nat (Z.of_nat i - 1)) with (i - 1) by lia.
  split; [reflexivity |]. apply nth_error_Some. lia.
Qed.

Lemma size_array_is : forall junk d dims,
  size_array junk (d :: dims) = d :: map junk (seq 1 (length dims)).
Proof. intros junk d dims. reflexivity. Qed.

Lemma ndims_dims : forall dims i, size_dim dims i <> None <-> (1 <= i <= Z.of_nat (ndims dims))%Z.
Proof.
  intros dims i. unfold size_dim, ndims. destruct (Z.leb_spec 1 i) as [H | H].
  - rewrite nth_error_Some. lia.
  - split; [congruence | lia].
Qed.
