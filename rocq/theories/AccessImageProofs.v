(** The image of an index set under an access function. *)
From Coq Require Import ZArith List Bool Lia ZifyBool.
From Verif Require Import RangeModel MDRangeModel Result BoxSetModel AccessModel Spec AccessSpec
  RangeProofs MDRangeProofs BoxListProofs BoxSetProofs AccessProofs ListTac.
Import ListNotations.
Open Scope Z_scope.

(** * Updates of a list *)

Lemma set_nth_length : forall A (l : list A) i x, length (set_nth l i x) = length l.
Proof. induction l; intros [|i] x; cbn; auto. Qed.

Lemma set_nth_same : forall A (l : list A) i x, (i < length l)%nat -> nth_error (set_nth l i x) i = Some x.
Proof. induction l; intros [|i] x H; cbn in *; try lia; [reflexivity|]. apply IHl. lia. Qed.

Lemma set_nth_other : forall A (l : list A) i j x, i <> j -> nth_error (set_nth l i x) j = nth_error l j.
Proof. induction l; intros [|i] [|j] x H; cbn; try reflexivity; try congruence. apply IHl. congruence. Qed.

(** * Functions that build makes *)

Section Mlir.
Variable m : mlir.
Hypothesis M : mlir_ok m.

Lemma da_extended_dims : forall n a fake e fk, acc_below n a ->
  da_extended m n fake a = (e, fk) ->
  dims_below (n + length fk) e /\ (length fake <= length fk)%nat /\
  (Forall (acc_below n) fake -> Forall (acc_below n) fk).
Proof.
  assert (W : forall k k' e, (k <= k')%nat -> dims_below k e -> dims_below k' e).
  { intros k k' e L. induction e; cbn; intros H; try tauto; lia. }
  intros n. induction a; intros fake e fk B H; cbn [acc_below da_extended] in *;
    try (injection H as <- <-; cbn; repeat split; auto; lia).
  - destruct B as (B1 & B2). destruct (da_extended m n fake a1) as (e1 & f1) eqn:E1.
    destruct (da_extended m n f1 a2) as (e2 & f2) eqn:E2. injection H as <- <-.
    destruct (IHa1 _ _ _ B1 E1) as (D1 & L1 & F1), (IHa2 _ _ _ B2 E2) as (D2 & L2 & F2).
    split; [|split; [lia|auto]]. apply (canon_dims m M). cbn. split; [|assumption].
    apply (W (n + length f1)%nat); [lia|assumption].
  - destruct B as (B1 & B2). destruct (da_extended m n fake a1) as (e1 & f1) eqn:E1.
    destruct (da_extended m n f1 a2) as (e2 & f2) eqn:E2. injection H as <- <-.
    destruct (IHa1 _ _ _ B1 E1) as (D1 & L1 & F1), (IHa2 _ _ _ B2 E2) as (D2 & L2 & F2).
    split; [|split; [lia|auto]]. apply (canon_dims m M). cbn. split.
    + apply (W (n + length f1)%nat); [lia|assumption].
    + apply (canon_dims m M). cbn. auto.
  - destruct B as (B1 & B2). destruct (da_extended m n fake a1) as (e1 & f1) eqn:E1.
    destruct (da_extended m n f1 a2) as (e2 & f2) eqn:E2. injection H as <- <-.
    destruct (IHa1 _ _ _ B1 E1) as (D1 & L1 & F1), (IHa2 _ _ _ B2 E2) as (D2 & L2 & F2).
    split; [|split; [lia|auto]]. apply (canon_dims m M). cbn. split; [|assumption].
    apply (W (n + length f1)%nat); [lia|assumption].
  - destruct B as (B1 & B2). destruct (da_extended m n fake a1) as (e1 & f1) eqn:E1.
    destruct (da_extended m n f1 a2) as (e2 & f2) eqn:E2. injection H as <- <-.
    destruct (IHa1 _ _ _ B1 E1) as (D1 & L1 & F1), (IHa2 _ _ _ B2 E2) as (D2 & L2 & F2).
    split; [|split; [lia|auto]]. apply (canon_dims m M). cbn. split; [|assumption].
    apply (W (n + length f1)%nat); [lia|assumption].
  - injection H as <- <-. rewrite app_length. cbn. split; [lia|]. split; [lia|].
    intros F. apply Forall_app. split; [assumption|]. constructor; [exact I|constructor].
  - injection H as <- <-. rewrite app_length. cbn. split; [lia|]. split; [lia|].
    intros F. apply Forall_app. split; [assumption|]. constructor; [exact I|constructor].
Qed.

Lemma dims_below_le : forall k k' e, (k <= k')%nat -> dims_below k e -> dims_below k' e.
Proof. intros k k' e L. induction e; cbn; intros H; try tauto; lia. Qed.

Lemma das_extended_dims : forall n rs fake es fk, Forall (acc_below n) rs ->
  das_extended m n fake rs = (es, fk) ->
  Forall (dims_below (n + length fk)) es /\ (length fake <= length fk)%nat /\ length es = length rs /\
  (Forall (acc_below n) fake -> Forall (acc_below n) fk).
Proof.
  intros n. induction rs as [|a rs IH]; intros fake es fk B H; cbn in H.
  - injection H as <- <-. repeat split; auto.
  - inversion B; subst. destruct (da_extended m n fake a) as (e & f1) eqn:E1.
    destruct (das_extended m n f1 rs) as (es' & f2) eqn:E2. injection H as <- <-.
    destruct (da_extended_dims n a fake e f1 H2 E1) as (D & L & F).
    destruct (IH _ _ _ H3 E2) as (D2 & L2 & L3 & F2). cbn.
    split; [constructor; [|assumption]|].
    + apply (dims_below_le (n + length f1)); [lia|assumption].
    + split; [lia|]. split; [congruence|auto].
Qed.

Lemma da_of_below : forall n fake e a, dims_below (n + length fake) e -> Forall (acc_below n) fake ->
  da_of n fake e = Ok a -> acc_below n a.
Proof.
  intros n fake. induction e; intros a B F H; cbn [da_of dims_below] in *; try discriminate.
  - destruct (Nat.leb_spec n d).
    + destruct (nth_error_some _ fake (d - n)) as (x & Hx); [lia|].
      rewrite Hx in H. injection H as <-. rewrite Forall_forall in F. apply F.
      eapply nth_error_In; eauto.
    + injection H as <-. assumption.
  - injection H as <-. exact I.
  - destruct B as (B1 & B2). apply bind_ok in H as (x & Hx & H). apply bind_ok in H as (y & Hy & H).
    injection H as <-. cbn. auto.
  - destruct B as (B1 & B2). apply bind_ok in H as (x & Hx & H). apply bind_ok in H as (y & Hy & H).
    injection H as <-. cbn. auto.
  - destruct B as (B1 & B2). apply bind_ok in H as (x & Hx & H). apply bind_ok in H as (y & Hy & H).
    injection H as <-. cbn. auto.
Qed.

Lemma da_of0_below : forall n e a, dims_below n e -> da_of 0 [] e = Ok a -> acc_below n a.
Proof.
  intros n. induction e; intros a B H; cbn [da_of dims_below] in *; try discriminate.
  - cbn in H. destruct (d - 0)%nat in H; injection H as <-; assumption.
  - injection H as <-. exact I.
  - destruct B as (B1 & B2). apply bind_ok in H as (x & Hx & H). apply bind_ok in H as (y & Hy & H).
    injection H as <-. cbn. auto.
  - destruct B as (B1 & B2). apply bind_ok in H as (x & Hx & H). apply bind_ok in H as (y & Hy & H).
    injection H as <-. cbn. auto.
  - destruct B as (B1 & B2). apply bind_ok in H as (x & Hx & H). apply bind_ok in H as (y & Hy & H).
    injection H as <-. cbn. auto.
Qed.

Lemma build_map_wf : forall n es f, Forall (dims_below n) es -> af_build_map m n es = Ok f ->
  af_wf n (length es) f.
Proof.
  intros n es f D H. unfold af_build_map in H. apply bind_ok in H as (rs & Hrs & H).
  pose proof (map_res_length _ _ _ _ _ Hrs) as L. rewrite map_length in L.
  destruct (build0_wf m M n rs) as (g & Hg & W).
  - apply Forall_forall. intros a Ha. destruct (map_res_in _ _ _ _ _ a Hrs Ha) as (e & He & Hea).
    apply (da_of0_below n e); [|assumption].
    pose proof (simps_dims m M n n es D) as X. rewrite Forall_forall in X. auto.
  - rewrite H in Hg. injection Hg as <-. now rewrite <- L.
Qed.

Lemma fromExtended_wf : forall n es fake f, Forall (dims_below (n + length fake)) es ->
  Forall (acc_below n) fake ->
  af_fromExtended m (n + length fake) es n fake = Ok f -> af_wf n (length es) f.
Proof.
  intros n es fake f D F H. unfold af_fromExtended in H. apply bind_ok in H as (rs & Hrs & H).
  pose proof (map_res_length _ _ _ _ _ Hrs) as L. rewrite map_length in L.
  replace (n + length fake - length fake)%nat with n in H by lia.
  destruct (build0_wf m M n rs) as (g & Hg & W).
  - apply Forall_forall. intros a Ha. destruct (map_res_in _ _ _ _ _ a Hrs Ha) as (e & He & Hea).
    apply (da_of_below n fake e); auto.
    pose proof (simps_dims m M (n + length fake) (n + length fake) es D) as X.
    rewrite Forall_forall in X. auto.
  - rewrite H in Hg. injection Hg as <-. now rewrite <- L.
Qed.

Lemma build_wf : forall n rs f, Forall (acc_below n) rs -> af_build m n rs = Ok f ->
  af_wf n (length rs) f.
Proof.
  intros n rs f B H. unfold af_build in H. destruct (das_extended m n [] rs) as (es & fake) eqn:E.
  destruct (das_extended_dims n rs [] es fake B E) as (D & _ & L & F).
  specialize (F (Forall_nil _)).
  apply fromExtended_wf in H; [now rewrite map_length, L in H| |assumption].
  now apply simps_dims.
Qed.

Lemma built_access_wf : forall n k f, built_access m n k f -> af_wf n k f.
Proof.
  intros n k f H. destruct H as [n es f D H|n rs f B H].
  - now apply build_map_wf.
  - now apply build_wf.
Qed.
End Mlir.

Lemma wf_dims : forall n k f, af_wf n k f -> af_dims f = n.
Proof. intros n k [] H; cbn in *; try tauto. destruct H. congruence. Qed.
Lemma wf_results : forall n k f, af_wf n k f -> af_results f = k.
Proof. intros n k [] H; cbn in *; try tauto. destruct H. congruence. Qed.

(** * Rotation-translations *)

(** The result of a roto expression on a box, as a range. *)
Definition roto_range (b : mdrange) (e : aexpr) : range :=
  match e with
  | ADim d => nth d b (mkRange 0 1)
  | AConst c => mkRange c (c + 1)
  | AAdd (ADim d) (AConst c) =>
      let r := nth d b (mkRange 0 1) in mkRange (rbegin r + c) (rend r + c)
  | _ => mkRange 0 1
  end.

Lemma roto_map_box_eq : forall n rs b, Forall (roto_expr n) rs -> box_of n b ->
  roto_map_box n rs b = Ok (map (roto_range b) rs).
Proof.
  intros n rs b H (R & L). unfold roto_map_box, point_eval. rewrite !map_length, L, Nat.leb_refl.
  cbn [assert_ok bind].
  assert (X : exists lo hi, map_res (fun e => of_option (aeval (map rbegin b) e)) rs = Ok lo /\
     map_res (fun e => of_option (aeval (map rend b) e)) rs = Ok hi /\
     map (fun q => let '(l, h) := q in if l =? h then mkRange l (h + 1) else mkRange l h)
       (combine lo hi) = map (roto_range b) rs).
  { induction H as [|e rs He H IH]; [exists [], []; repeat split|].
    destruct IH as (lo & hi & Hlo & Hhi & IH).
    assert (Y : exists l h, aeval (map rbegin b) e = Some l /\ aeval (map rend b) e = Some h /\
              (if l =? h then mkRange l (h + 1) else mkRange l h) = roto_range b e).
    { destruct He as [d Hd|c|d c Hd Hc]; cbn.
      - destruct (nth_error_some _ b d) as (r & Hr); [lia|].
        rewrite !(map_nth_error _ _ _ Hr). exists (rbegin r), (rend r).
        rewrite (nth_error_nth _ _ _ Hr). split; [reflexivity|]. split; [reflexivity|].
        destruct R as (_ & R). rewrite Forall_forall in R. specialize (R r (nth_error_In _ _ Hr)).
        unfold range_ok in R. destruct (Z.eqb_spec (rbegin r) (rend r)); [lia|]. destruct r; reflexivity.
      - exists c, c. rewrite Z.eqb_refl. auto.
      - destruct (nth_error_some _ b d) as (r & Hr); [lia|].
        rewrite !(map_nth_error _ _ _ Hr). exists (rbegin r + c), (rend r + c).
        rewrite (nth_error_nth _ _ _ Hr). split; [reflexivity|]. split; [reflexivity|].
        destruct R as (_ & R). rewrite Forall_forall in R. specialize (R r (nth_error_In _ _ Hr)).
        unfold range_ok in R. destruct (Z.eqb_spec (rbegin r + c) (rend r + c)); [lia|]. reflexivity. }
    destruct Y as (l & h & Hl & Hh & Y). exists (l :: lo), (h :: hi). cbn [map_res map combine].
    rewrite Hl, Hh. cbn [of_option bind]. rewrite Hlo, Hhi. cbn [bind]. rewrite Y, IH. auto. }
  destruct X as (lo & hi & -> & -> & X). cbn [bind]. now rewrite X.
Qed.

Lemma in_box_nth : forall p b d r, in_box p b -> nth_error b d = Some r ->
  exists v, nth_error p d = Some v /\ in_range v r.
Proof.
  intros p b d r H. revert d. induction H as [|v r' p b Hv H IH]; intros [|d] Hd; cbn in Hd; try discriminate.
  - injection Hd as ->. cbn. eauto.
  - cbn. auto.
Qed.

(** The element accessed at a point of the box is in the range of the image. *)
Lemma roto_in_range : forall n b e p v, roto_expr n e -> box_of n b -> in_box p b -> aeval p e = Some v ->
  in_range v (roto_range b e).
Proof.
  intros n b e p v He (_ & L) Hp Hv. destruct He as [d Hd|c|d c Hd Hc]; cbn in *.
  - destruct (nth_error_some _ b d) as (r & Hr); [lia|]. rewrite (nth_error_nth _ _ _ Hr).
    destruct (in_box_nth p b d r Hp Hr) as (w & Hw & Hin). congruence.
  - injection Hv as <-. unfold in_range. cbn. lia.
  - destruct (nth_error_some _ b d) as (r & Hr); [lia|]. rewrite (nth_error_nth _ _ _ Hr).
    destruct (in_box_nth p b d r Hp Hr) as (w & Hw & Hin). rewrite Hw in Hv. injection Hv as <-.
    unfold in_range in *. cbn. lia.
Qed.

Lemma roto_in_box : forall n b rs p q, Forall (roto_expr n) rs -> box_of n b -> in_box p b ->
  affine_values p rs = Some q -> in_box q (map (roto_range b) rs).
Proof.
  intros n b rs p q H B Hp. revert q. induction H as [|e rs He H IH]; intros q Hq; cbn in *.
  - injection Hq as <-. constructor.
  - destruct (aeval p e) as [v|] eqn:E; [|discriminate].
    destruct (affine_values p rs) as [q'|]; [|discriminate]. injection Hq as <-.
    constructor; [eapply roto_in_range; eauto|apply IH; reflexivity].
Qed.

Lemma set_in_box : forall p b d r v, in_box p b -> nth_error b d = Some r -> in_range v r ->
  in_box (set_nth p d v) b.
Proof.
  intros p b d r v H. revert d. induction H as [|w r' p b Hw H IH]; intros [|d] Hd Hv; cbn in *; try discriminate.
  - injection Hd as ->. constructor; assumption.
  - constructor; [assumption|]. now apply IH.
Qed.

Lemma aeval_set : forall p d v e, ~ In d (adims e) -> aeval (set_nth p d v) e = aeval p e.
Proof.
  intros p d v. induction e; cbn; intros H; try reflexivity;
    try (rewrite in_app_iff in H; rewrite IHe1, IHe2 by tauto; reflexivity).
  apply set_nth_other. intros ->. apply H. now left.
Qed.

Lemma values_set : forall p d v es, ~ In d (flat_map adims es) ->
  affine_values (set_nth p d v) es = affine_values p es.
Proof.
  intros p d v. induction es as [|e es IH]; cbn; intros H; [reflexivity|].
  rewrite in_app_iff in H. rewrite aeval_set, IH by tauto. reflexivity.
Qed.

Lemma roto_onto : forall n b rs q, Forall (roto_expr n) rs -> NoDup (flat_map adims rs) ->
  box_of n b -> in_box q (map (roto_range b) rs) ->
  exists p, in_box p b /\ affine_values p rs = Some q.
Proof.
  intros n b rs q H. revert q. induction H as [|e rs He H IH]; intros q N B Hq; cbn in *.
  - inversion Hq; subst. destruct B as ((B1 & B2) & L).
    assert (X : forall b, Forall range_ok b -> exists p, in_box p b).
    { clear. induction 1 as [|r b Hr Hb (p & Hp)]; [exists []; constructor|].
      exists (rbegin r :: p). constructor; [|assumption]. unfold range_ok, in_range in *. lia. }
    destruct (X b B2) as (p & Hp). exists p. auto.
  - inversion Hq as [|v r q' l Hv Hq']; subst.
    destruct (IH q' (NoDup_app_r _ _ _ N) B Hq') as (p & Hp & Ev).
    pose proof (in_box_length _ _ Hp) as Lp. destruct B as (B & L).
    destruct He as [d Hd|c|d c Hd Hc]; cbn in *.
    + destruct (nth_error_some _ b d) as (r & Hr); [lia|]. rewrite (nth_error_nth _ _ _ Hr) in Hv.
      exists (set_nth p d v). split; [eapply set_in_box; eauto|].
      rewrite set_nth_same by lia. rewrite values_set, Ev; [reflexivity|].
      inversion N; assumption.
    + exists p. split; [assumption|]. rewrite Ev. unfold in_range in Hv. cbn in Hv.
      do 2 f_equal. lia.
    + destruct (nth_error_some _ b d) as (r & Hr); [lia|]. rewrite (nth_error_nth _ _ _ Hr) in Hv.
      exists (set_nth p d (v - c)). unfold in_range in Hv. cbn in Hv.
      split; [eapply set_in_box; eauto; unfold in_range; lia|].
      rewrite set_nth_same by lia. rewrite values_set, Ev.
      * do 2 f_equal. lia.
      * inversion N; assumption.
Qed.

(** * Constant functions *)

Lemma da_map_const : forall p q cur a, is_constant_access a = true -> da_map p cur a = da_map q cur a.
Proof. intros p q cur [] H; try discriminate; reflexivity. Qed.

Lemma fold_res_ext : forall A B (f g : A -> B -> res A) l acc,
  (forall a x, In x l -> f a x = g a x) -> fold_res f l acc = fold_res g l acc.
Proof.
  intros A B f g. induction l as [|x l IH]; intros acc H; cbn; [reflexivity|].
  rewrite (H acc x) by now left. destruct (g acc x); cbn; auto. apply IH. intros. apply H. now right.
Qed.

Lemma append_const : forall p q cur rs acc, Forall (fun a => is_constant_access a = true) rs ->
  append_results p cur rs acc = append_results q cur rs acc.
Proof.
  intros p q cur rs acc H. unfold append_results. apply fold_res_ext. intros a x Hx.
  rewrite Forall_forall in H. now rewrite (da_map_const p q cur x (H x Hx)).
Qed.

Lemma rec_const : forall p q rs, Forall (fun a => is_constant_access a = true) rs ->
  forall spaces acc cur, gen_map_rec p rs spaces acc cur = gen_map_rec q rs spaces acc cur.
Proof.
  intros p q rs H. induction spaces as [|(i & s) spaces IH]; intros acc cur; cbn [gen_map_rec].
  - cbn [bind]. now rewrite (append_const p q cur rs [] H).
  - rewrite (fold_res_ext _ _ _ (fun st q0 => gen_map_rec q rs spaces (fst st) ((i, q0) :: snd st)))
      by (intros; apply IH).
    destruct (fold_res (fun st q0 => gen_map_rec q rs spaces (fst st) ((i, q0) :: snd st)) (bs_points s) (acc, cur)) as [(acc1 & cur1)| |]; cbn; [|reflexivity|reflexivity].
    now rewrite (append_const p q cur1 rs [] H).
Qed.

Lemma gen_const : forall p q rs, Forall (fun a => is_constant_access a = true) rs ->
  gen_map_point rs p = gen_map_point rs q.
Proof.
  intros p q rs H. unfold gen_map_point.
  destruct (unique_spaces (flat_map da_spaces rs) []) as [|sp l]; cbn [bind].
  - apply append_const, H.
  - rewrite (rec_const p q rs H). destruct (gen_map_rec q rs (sp :: l) [] []) as [(a & c)| |]; cbn;
      [|reflexivity|reflexivity]. apply append_const, H.
Qed.

(** * The image *)

Lemma point_eval_values : forall n es p q, point_eval n es p = Ok q <->
  (n <= length p)%nat /\ affine_values p es = Some q.
Proof.
  intros n es p q. unfold point_eval.
  assert (X : forall es q, map_res (fun e => of_option (aeval p e)) es = Ok q <-> affine_values p es = Some q).
  { clear. induction es as [|e es IH]; intros q; cbn.
    - split; intros H; injection H as <-; reflexivity.
    - destruct (aeval p e) as [v|]; cbn; [|split; discriminate].
      destruct (map_res _ es) as [ys| |]; cbn.
      + rewrite (proj1 (IH ys) eq_refl). split; intros H; injection H as <-; reflexivity.
      + destruct (affine_values p es) as [q'|]; [|split; discriminate].
        discriminate (proj2 (IH q') eq_refl).
      + destruct (affine_values p es) as [q'|]; [|split; discriminate].
        discriminate (proj2 (IH q') eq_refl). }
  destruct (Nat.leb_spec n (length p)); cbn.
  - rewrite X. tauto.
  - split; [discriminate|lia].
Qed.

Lemma consts_values : forall rs, Forall is_AConst rs ->
  exists q, map_res (fun e => match e with AConst c => Ok c | _ => Bad end) rs = Ok q /\
    length q = length rs /\ forall p, affine_values p rs = Some q.
Proof.
  induction 1 as [|e rs He H (q & Hq & L & V)]; cbn; [exists []; auto|].
  destruct e; try contradiction. rewrite Hq. cbn. exists (c :: q). cbn.
  repeat split; auto. intros p. now rewrite V.
Qed.

Definition is_image (f : afun) (s t : bset) : Prop :=
  forall q, in_boxes q t <-> exists p, in_boxes p s /\ accesses f p q.

Lemma roto_image_sub : forall n k rs s, af_wf n k (AFRoto n rs) -> bs_of n s ->
  exists t, af_map_set (AFRoto n rs) s = Ok t /\
    (forall p q, in_boxes p s -> accesses (AFRoto n rs) p q -> in_boxes q t) /\
    (NoDup (flat_map adims rs) -> is_image (AFRoto n rs) s t).
Proof.
  intros n k rs s (_ & Lk & Hn & Hk & F) S. cbn [af_map_set].
  exists (map (fun b => map (roto_range b) rs) s). split; [|split].
  - apply map_res_ok. clear Lk Hk. induction S as [|b s Hb S IH]; constructor; [|assumption].
    now apply roto_map_box_eq.
  - intros p q (b & Hb & Hp) (t & Ht & Hq). cbn in Ht.
    apply bind_ok in Ht as (q' & Hq' & Ht). injection Ht as <-. apply in_boxes_point in Hq as ->.
    apply point_eval_values in Hq' as (_ & Hq'). unfold bs_of in S; rewrite Forall_forall in S.
    exists (map (roto_range b) rs). split; [apply in_map_iff; eauto|].
    eapply roto_in_box; eauto.
  - intros N q. split.
    + intros (b' & Hb' & Hq). apply in_map_iff in Hb' as (b & <- & Hb).
      unfold bs_of in S; rewrite Forall_forall in S. destruct (roto_onto n b rs q F N (S b Hb) Hq) as (p & Hp & Ev).
      exists p. split; [exists b; auto|]. exists [mdrange_of_point q]. split; [|now apply in_boxes_point].
      cbn. rewrite (proj2 (point_eval_values n rs p q)); [reflexivity|]. split; [|assumption].
      rewrite (in_box_length _ _ Hp). destruct (S b Hb) as (_ & ->). lia.
    + intros (p & (b & Hb & Hp) & (t & Ht & Hq)). cbn in Ht.
      apply bind_ok in Ht as (q' & Hq' & Ht). injection Ht as <-. apply in_boxes_point in Hq as ->.
      apply point_eval_values in Hq' as (_ & Hq'). unfold bs_of in S; rewrite Forall_forall in S.
      exists (map (roto_range b) rs). split; [apply in_map_iff; eauto|].
      eapply roto_in_box; eauto.
Qed.

Lemma gen_fold_image : forall rs l acc t,
  fold_res (fun acc p => q <- gen_map_point rs p ;; Ok (bs_union acc q)) l acc = Ok t ->
  forall q, in_boxes q t <-> in_boxes q acc \/ exists p s, In p l /\ gen_map_point rs p = Ok s /\ in_boxes q s.
Proof.
  intros rs. induction l as [|p l IH]; intros acc t H q; cbn in H.
  - injection H as <-. split; [auto|]. intros [H|(p & s & [] & _)]. assumption.
  - apply bind_ok in H as (acc' & H' & H). apply bind_ok in H' as (s & Hs & H').
    injection H' as <-. rewrite (IH _ _ H q), bs_union_spec. split.
    + intros [[X|X]|(p' & s' & X)]; [auto| |].
      * right. exists p, s. cbn. auto.
      * right. exists p', s'. cbn. tauto.
    + intros [X|(p' & s' & [->|X] & Y & Z)]; [auto| |].
      * rewrite Hs in Y. injection Y as <-. auto.
      * right. exists p', s'. auto.
Qed.

Lemma image_exact : forall n k f s t, af_wf n k f -> (1 <= n)%nat -> (1 <= k)%nat -> bs_of n s ->
  one_use f -> af_map_set f s = Ok t -> is_image f s t.
Proof.
  intros n k f s t W Hn Hk S O H. pose proof W as W0.
  destruct f as [|n' rs|n' rs|n' rs|n' rs]; cbn [af_wf] in W.
  - lia.
  - destruct W as (-> & Lk & F & _). cbn [af_map_set] in H. destruct (Nat.eqb_spec n 0); [lia|].
    rewrite andb_true_r in H. destruct (consts_values rs F) as (v & Hv & _ & V).
    destruct (bs_empty s) eqn:E.
    + injection H as <-. destruct s; [|discriminate]. intros q. split; [intros (b & [] & _)|].
      intros (p & (b & [] & _) & _).
    + destruct rs; [cbn in Lk; lia|]. rewrite Hv in H. cbn [bind] in H. injection H as <-.
      intros q. rewrite in_boxes_point. split.
      * intros ->. destruct (bs_nonempty n s S) as (p & Hp); [destruct s; discriminate|].
        exists p. split; [assumption|]. exists [mdrange_of_point v]. split; [|now apply in_boxes_point].
        cbn [af_map_point]. rewrite (proj2 (point_eval_values n _ p v)); [reflexivity|].
        split; [|apply V]. rewrite (bs_of_length n s p S Hp). lia.
      * intros (p & Hp & u & Hu & Hq). cbn [af_map_point] in Hu. apply bind_ok in Hu as (q' & Hq' & Hu).
        injection Hu as <-. apply in_boxes_point in Hq as ->.
        apply point_eval_values in Hq' as (_ & Hq'). rewrite V in Hq'. congruence.
  - destruct W as (-> & Lk & _ & F). cbn [af_map_set] in H. destruct (Nat.eqb_spec n 0); [lia|].
    rewrite andb_true_r in H. destruct (bs_empty s) eqn:E.
    + injection H as <-. destruct s; [|discriminate]. intros q. split; [intros (b & [] & _)|].
      intros (p & (b & [] & _) & _).
    + intros q. split.
      * intros Hq. destruct (bs_nonempty n s S) as (p & Hp); [destruct s; discriminate|].
        exists p. split; [assumption|]. exists t. split; [|assumption]. cbn.
        now rewrite (gen_const p (repeat 0 n) rs F).
      * intros (p & Hp & u & Hu & Hq). cbn in Hu.
        rewrite (gen_const p (repeat 0 n) rs F), H in Hu. injection Hu as <-. assumption.
  - destruct W as (-> & _). destruct (roto_image_sub n k rs s W0 S) as (t' & Ht' & _ & X).
    rewrite H in Ht'. injection Ht' as <-. now apply X.
  - destruct W as (-> & _). cbn [af_map_set] in H. intros q. rewrite (gen_fold_image rs _ _ _ H q). split.
    + intros [(b & [] & _)|(p & u & Hp & Hu & Hq)]. apply in_bs_points in Hp.
      exists p. split; [assumption|]. exists u. auto.
    + intros (p & Hp & u & Hu & Hq). right. exists p, u. rewrite in_bs_points. auto.
Qed.

(** The accessed elements are in the image even when a dimension is used twice. *)
Lemma image_sub : forall n k f s t, af_wf n k f -> (1 <= n)%nat -> (1 <= k)%nat -> bs_of n s ->
  af_map_set f s = Ok t -> forall p q, in_boxes p s -> accesses f p q -> in_boxes q t.
Proof.
  intros n k f s t W Hn Hk S H p q Hp Ha.
  destruct f as [|n' rs|n' rs|n' rs|n' rs];
    try (eapply image_exact; eauto; exact I).
  pose proof W as W'. destruct W' as (-> & _).
  destruct (roto_image_sub n k rs s W S) as (t' & Ht' & X & _). rewrite H in Ht'. injection Ht' as <-. eauto.
Qed.

(** Mapping a set ends without failure when mapping each of its points does. *)
Lemma image_defined : forall n k f s, af_wf n k f -> (1 <= n)%nat -> bs_of n s ->
  (forall p, in_boxes p s -> exists u, af_map_point f p = Ok u) -> exists t, af_map_set f s = Ok t.
Proof.
  intros n k f s W Hn S D. pose proof W as W0. destruct f as [|n' rs|n' rs|n' rs|n' rs]; cbn [af_wf] in W.
  - cbn. eauto.
  - destruct W as (-> & Lk & F & _). cbn. destruct (bs_empty s && _); [eauto|].
    destruct (consts_values rs F) as (v & Hv & _). destruct rs; [eauto|]. rewrite Hv. cbn. eauto.
  - destruct W as (-> & Lk & _ & F). cbn. destruct (Nat.eqb_spec n 0); [lia|]. rewrite andb_true_r.
    destruct (bs_empty s) eqn:E; [eauto|].
    destruct (bs_nonempty n s S) as (p & Hp); [destruct s; discriminate|].
    destruct (D p Hp) as (u & Hu). exists u. cbn in Hu. now rewrite <- (gen_const p (repeat 0 n) rs F).
  - destruct W as (-> & _). destruct (roto_image_sub n k rs s W0 S) as (t' & Ht' & _). eauto.
  - cbn. assert (D' : forall p, In p (bs_points s) -> exists u, gen_map_point rs p = Ok u)
      by (intros p Hp; apply D; now apply in_bs_points).
    clear - D'. revert D'. generalize (@nil mdrange). generalize (bs_points s).
    induction l as [|p l IH]; intros acc D; cbn; [eauto|].
    destruct (D p (or_introl eq_refl)) as (u & ->). cbn. apply IH. intros. apply D. now right.
Qed.
