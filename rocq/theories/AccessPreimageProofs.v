(** Preimages of index sets under access functions. *)
From Coq Require Import ZArith List Bool Lia ZifyBool.
From Verif Require Import RangeModel MDRangeModel Result BoxSetModel AccessModel Spec AccessSpec
  RangeProofs MDRangeProofs BoxListProofs BoxSetProofs AccessProofs AccessImageProofs
  AccessInverseProofs IndexSetSpec IndexSetProjProofs ListTac.
Import ListNotations.
Open Scope Z_scope.

(** * The base class *)

Lemma filter_res_spec : forall A (f : A -> res bool) l, (forall x, In x l -> exists b, f x = Ok b) ->
  exists r, filter_res f l = Ok r /\ forall x, In x r <-> In x l /\ f x = Ok true.
Proof.
  intros A f. induction l as [|x l IH]; intros H.
  - exists []. split; [reflexivity|]. cbn. tauto.
  - destruct (H x (or_introl eq_refl)) as (b & Hb). cbn. rewrite Hb. cbn.
    destruct IH as (r & -> & R); [intros; apply H; now right|]. cbn. eexists. split; [reflexivity|].
    intros y. destruct b; cbn; rewrite R; intuition (subst; auto). congruence.
Qed.

Lemma base_inverse_spec : forall f acc par,
  (forall p, in_boxes p par -> exists s, af_map_point f p = Ok s) ->
  exists r, base_inverseMap f acc par = Ok r /\
    forall p, in_boxes p r <-> in_boxes p par /\
      exists s, af_map_point f p = Ok s /\ forall q, in_boxes q s -> in_boxes q acc.
Proof.
  intros f acc par D. unfold base_inverseMap.
  destruct (filter_res_spec _ (fun p => s <- af_map_point f p ;; Ok (bs_contains acc s)) (bs_points par))
    as (l & -> & X).
  { intros p Hp. apply in_bs_points in Hp. destruct (D p Hp) as (s & ->). cbn. eauto. }
  cbn [bind]. eexists. split; [reflexivity|].
  intros p. rewrite of_points_in, X, in_bs_points. split.
  - intros (Hp & H). split; [assumption|]. apply bind_ok in H as (s & Hs & H). injection H as H.
    exists s. split; [assumption|]. now apply bs_contains_spec.
  - intros (Hp & s & Hs & H). split; [assumption|]. rewrite Hs. cbn. f_equal. now apply bs_contains_spec.
Qed.

(** * Selected dimensions *)

Lemma select_nth : forall A bits (l : list A) d, length l = length bits -> nth_error bits d = Some true ->
  nth_error (select bits l) (ones (firstn d bits)) = nth_error l d.
Proof.
  intros A. induction bits as [|b bits IH]; intros [|x l] [|d] L H; cbn in *; try discriminate.
  - injection H as ->. reflexivity.
  - destruct b; cbn; apply IH; auto; lia.
Qed.

Lemma ones_lt : forall bits d, nth_error bits d = Some true -> (ones (firstn d bits) < ones bits)%nat.
Proof.
  induction bits as [|b bits IH]; intros [|d] H; cbn in *; try discriminate.
  - injection H as ->. lia.
  - specialize (IH d H). destruct b; lia.
Qed.

Lemma ones_onto : forall bits x, (x < ones bits)%nat ->
  exists d, nth_error bits d = Some true /\ ones (firstn d bits) = x.
Proof.
  induction bits as [|b bits IH]; intros x H; cbn in H; [lia|]. destruct b.
  - destruct x as [|x].
    + exists 0%nat. auto.
    + destruct (IH x) as (d & Hd & E); [lia|]. exists (S d). cbn. split; [assumption|]. now rewrite E.
  - destruct (IH x H) as (d & Hd & E). exists (S d). cbn. auto.
Qed.

Lemma merge_dims_spec : forall used red par, length par = length used -> length red = ones used ->
  exists b, merge_dims used red par = Ok b /\ length b = length used /\
    (Forall range_ok red -> Forall range_ok par -> Forall range_ok b) /\
    (forall p, in_box p b -> in_box (select used p) red) /\
    (forall p, in_box p par -> in_box (select used p) red -> in_box p b) /\
    (forall p, in_box p b -> in_box (select used p) (select used par) -> in_box p par).
Proof.
  induction used as [|u used IH]; intros red [|r par] L1 L2; cbn in *; try discriminate.
  - exists []. split; [reflexivity|]. split; [reflexivity|]. split; [auto|].
    split; [intros p Hp; destruct red; [constructor|discriminate]|]. split; [auto|auto].
  - destruct u.
    + destruct red as [|r' red]; [discriminate|]. cbn in L2.
      destruct (IH red par) as (b & -> & Lb & Ok & S1 & S2 & S3); [lia|lia|]. cbn [bind].
      exists (r' :: b). split; [reflexivity|]. split; [cbn; lia|]. split; [|split; [|split]].
      * intros F1 F2. inversion F1; inversion F2; subst. constructor; auto.
      * intros p Hp. destruct p as [|v p]; [inversion Hp|]. apply in_box_cons in Hp as (H1 & H2).
        apply in_box_cons. auto.
      * intros p Hp Hs. destruct p as [|v p]; [inversion Hp|]. apply in_box_cons in Hp as (H1 & H2).
        apply in_box_cons in Hs as (H3 & H4). apply in_box_cons. auto.
      * intros p Hp Hs. destruct p as [|v p]; [inversion Hp|]. apply in_box_cons in Hp as (H1 & H2).
        apply in_box_cons in Hs as (H3 & H4). apply in_box_cons. auto.
    + destruct (IH red par) as (b & -> & Lb & Ok & S1 & S2 & S3); [lia|lia|]. cbn [bind].
      exists (r :: b). split; [reflexivity|]. split; [cbn; lia|]. split; [|split; [|split]].
      * intros F1 F2. inversion F2; subst. constructor; auto.
      * intros p Hp. destruct p as [|v p]; [inversion Hp|]. apply in_box_cons in Hp as (H1 & H2). auto.
      * intros p Hp Hs. destruct p as [|v p]; [inversion Hp|]. apply in_box_cons in Hp as (H1 & H2).
        apply in_box_cons. auto.
      * intros p Hp Hs. destruct p as [|v p]; [inversion Hp|]. apply in_box_cons in Hp as (H1 & H2).
        apply in_box_cons. auto.
Qed.

(** * Used dimensions *)

Lemma usedDims_spec : forall n rs dcs, Forall2 (shift_of n) rs dcs ->
  length (usedDims n rs) = n /\
  forall x, nth_error (usedDims n rs) x = Some true <-> In x (map fst dcs).
Proof.
  intros n rs dcs H. unfold usedDims.
  assert (X : forall u, length u = n ->
    let u' := fold_left (fun u e => match inductionVar e with Some d => set_bit u d | None => u end) rs u in
    length u' = n /\ forall x, nth_error u' x = Some true <-> nth_error u x = Some true \/ In x (map fst dcs)).
  { induction H as [|e dc rs dcs He H IH]; intros u L; cbn.
    - tauto.
    - destruct He as (Hd & Hi & _). rewrite Hi.
      destruct (IH (set_bit u (fst dc))) as (A & B); [unfold set_bit; now rewrite set_nth_length|].
      split; [assumption|]. intros x. rewrite B, set_bit_in. intuition (subst; auto). }
  destruct (X (repeat false n) (repeat_length _ _)) as (A & B). split; [assumption|].
  intros x. rewrite B. split; [|auto]. intros [H'|H']; [|assumption]. now apply repeat_false in H'.
Qed.

Lemma usedResults_all : forall n rs dcs, Forall2 (shift_of n) rs dcs -> usedResults rs = repeat true (length rs).
Proof.
  intros n rs dcs H. induction H as [|e dc rs dcs He H IH]; [reflexivity|]. cbn.
  destruct He as (_ & -> & _). now f_equal.
Qed.

Lemma slice_all : forall n (b : mdrange), length b = n -> mdrange_slice b (repeat true n) = b.
Proof. induction n; intros [|r b] H; try discriminate; cbn; [reflexivity|]. f_equal. apply IHn. cbn in H. lia. Qed.

Lemma bs_slice_all : forall n s, bs_of n s -> bs_slice s (repeat true n) = s.
Proof.
  intros n s H. unfold bs_slice. induction H as [|b s Hb H IH]; [reflexivity|]. cbn. rewrite IH. f_equal.
  apply slice_all. apply Hb.
Qed.

Lemma used_in_spec : forall n rs dcs x, Forall2 (shift_of n) rs dcs ->
  (used_in rs x = true <-> In x (map fst dcs)).
Proof.
  intros n rs dcs x H. unfold used_in. rewrite (shifts_dims n rs dcs H), existsb_exists. split.
  - intros (y & Hy & E). apply Nat.eqb_eq in E as ->. assumption.
  - intros Hx. exists x. split; [assumption|]. apply Nat.eqb_refl.
Qed.

Lemma newDim_ones : forall n rs dcs, Forall2 (shift_of n) rs dcs -> forall d, (d <= n)%nat ->
  newDim rs d = ones (firstn d (usedDims n rs)).
Proof.
  intros n rs dcs H. destruct (usedDims_spec n rs dcs H) as (L & U). unfold newDim.
  induction d as [|d IH]; intros Hd; [reflexivity|].
  rewrite seq_S, filter_app, app_length, IH by lia. cbn [Nat.add].
  assert (F : firstn (S d) (usedDims n rs) = firstn d (usedDims n rs) ++ [used_in rs d]).
  { destruct (nth_error_some _ (usedDims n rs) d) as (b & Hb); [lia|].
    assert (b = used_in rs d) as <-.
    { destruct b.
      - symmetry. apply (used_in_spec n rs dcs d H). now apply U.
      - destruct (used_in rs d) eqn:E; [|reflexivity]. apply (used_in_spec n rs dcs d H), U in E. congruence. }
    clear - Hb. revert d Hb. induction (usedDims n rs) as [|x l IHl]; intros [|d] Hb; try discriminate.
    - cbn in *. now injection Hb as ->.
    - cbn in *. f_equal. now apply IHl. }
  rewrite F.
  assert (O : forall a b, ones (a ++ b) = (ones a + ones b)%nat).
  { clear. induction a as [|[] a IH]; intros b; cbn; rewrite ?IH; reflexivity. }
  rewrite O. f_equal. cbn. destruct (used_in rs d); reflexivity.
Qed.

Lemma newDim_total : forall n rs dcs, Forall2 (shift_of n) rs dcs -> newDim rs n = ones (usedDims n rs).
Proof.
  intros n rs dcs H. rewrite (newDim_ones n rs dcs H n) by lia.
  destruct (usedDims_spec n rs dcs H) as (L & _). rewrite <- L at 1. now rewrite firstn_all.
Qed.

(** The renamed results. *)
Lemma rename_shift : forall n n' g e dc, shift_of n e dc -> (g (fst dc) < n')%nat ->
  shift_of n' (arename g e) (g (fst dc), snd dc).
Proof.
  intros n n' g e (d & c) (Hd & Hi & Ho & Ha & He & V) Hg. cbn [fst snd] in *.
  destruct He as [d' Hd'|c'|d' c' Hd' Hc']; cbn in *.
  - injection Hi as ->. injection Ho as <-. unfold shift_of. cbn. split; [assumption|].
    do 3 (split; [reflexivity|]). split; [now constructor|]. intros p v ->. f_equal. lia.
  - discriminate.
  - injection Hi as ->. injection Ho as <-. unfold shift_of. cbn. split; [assumption|].
    do 3 (split; [reflexivity|]). split; [now constructor|]. intros p v ->. reflexivity.
Qed.

Lemma rename_shifts : forall n n' g rs dcs, Forall2 (shift_of n) rs dcs ->
  (forall d, In d (map fst dcs) -> (g d < n')%nat) ->
  Forall2 (shift_of n') (map (arename g) rs) (map (fun dc => (g (fst dc), snd dc)) dcs).
Proof.
  intros n n' g rs dcs H. induction H as [|e dc rs dcs He H IH]; intros G; cbn; [constructor|].
  constructor.
  - apply (rename_shift n); [assumption|]. apply G. now left.
  - apply IH. intros d Hd. apply G. now right.
Qed.

Lemma shifts_values : forall n rs dcs p, Forall2 (shift_of n) rs dcs -> (n <= length p)%nat ->
  affine_values p rs = Some (map (fun dc => nth (fst dc) p 0 + snd dc) dcs).
Proof.
  intros n rs dcs p H L. induction H as [|e dc rs dcs He H IH]; [reflexivity|]. cbn.
  destruct He as (Hd & _ & _ & _ & _ & V). destruct (nth_error_some _ p (fst dc)) as (v & Hv); [lia|].
  rewrite (V p v Hv), IH, (nth_error_nth _ _ _ Hv). reflexivity.
Qed.

Lemma shifts_noconst : forall n rs dcs, Forall2 (shift_of n) rs dcs -> Forall (fun e => is_const_b e = false) rs.
Proof.
  intros n rs dcs H. induction H as [|e dc rs dcs He H IH]; constructor; [|assumption].
  destruct He as (_ & Hi & _). destruct e; try reflexivity. discriminate.
Qed.
Lemma shifts_roto : forall n rs dcs, Forall2 (shift_of n) rs dcs -> Forall (roto_expr n) rs.
Proof. intros n rs dcs H. induction H as [|e dc rs dcs He H IH]; constructor; [apply He|assumption]. Qed.
Lemma filter_noconst : forall rs, Forall (fun e => is_const_b e = false) rs ->
  filter (fun e => match e with AConst _ => false | _ => true end) rs = rs.
Proof.
  induction 1 as [|e rs He H IH]; [reflexivity|]. cbn. rewrite IH. destruct e; try reflexivity. discriminate.
Qed.

Lemma box_of_point : forall rk p, length p = rk -> (1 <= rk)%nat -> box_of rk (mdrange_of_point p).
Proof. exact of_point_box. Qed.

Section Mlir.
Variable m : mlir.
Hypothesis M : mlir_ok m.

Definition preimage_on (par : bset) (rs : list aexpr) (acc r : bset) : Prop :=
  forall p, in_boxes p par -> (in_boxes p r <-> exists q, affine_values p rs = Some q /\ in_boxes q acc).

Lemma forallb_id : forall l, forallb (fun b : bool => b) l = true <-> forall x, (x < length l)%nat -> nth_error l x = Some true.
Proof.
  intros l. rewrite forallb_forall. split.
  - intros H x Hx. destruct (nth_error_some _ l x Hx) as (b & Hb). rewrite Hb. f_equal.
    apply H. eapply nth_error_In; eauto.
  - intros H b Hb. apply In_nth_error in Hb as (x & Hx).
    assert (Lx : (x < length l)%nat) by (apply nth_error_Some; congruence).
    rewrite (H x Lx) in Hx. congruence.
Qed.

(** Functions whose results use all the dimensions. *)
Lemma full_preimage : forall n k rs dcs fuel acc par, (1 <= n)%nat -> (1 <= k)%nat -> length rs = k ->
  Forall2 (shift_of n) rs dcs -> forallb (fun b => b) (usedDims n rs) = true ->
  bs_of k acc -> bs_of n par -> acc <> [] -> par <> [] ->
  exists r, af_inverseMap m fuel (AFRoto n rs) acc par = Ok r /\ bs_of n r /\ preimage_on par rs acc r /\
    forall p, in_boxes p r -> (exists q, affine_values p rs = Some q /\ in_boxes q acc) /\
      (in_boxes p par \/ NoDup (flat_map adims rs)).
Proof.
  intros n k rs dcs fuel acc par Hn Hk Lk D U A P Na Np.
  set (extra := fun r => forall p, in_boxes p r -> (exists q, affine_values p rs = Some q /\ in_boxes q acc) /\
      (in_boxes p par \/ NoDup (flat_map adims rs))).
  pose proof (shifts_roto n rs dcs D) as F.
  assert (R : exists r, base_inverseMap (AFRoto n rs) acc par = Ok r /\ bs_of n r /\ preimage_on par rs acc r /\ extra r).
  { destruct (base_inverse_spec (AFRoto n rs) acc par) as (r & Hr & X).
    - intros p Hp. cbn. rewrite (proj2 (point_eval_values n rs p (map (fun dc => nth (fst dc) p 0 + snd dc) dcs))); [cbn; eauto|].
      split; [rewrite (bs_of_length n par p P Hp); lia|].
      eapply shifts_values; eauto. rewrite (bs_of_length n par p P Hp). lia.
    - exists r. split; [assumption|]. split.
      + unfold base_inverseMap in Hr. apply bind_ok in Hr as (l & Hl & Hr). injection Hr as <-.
        unfold bs_of, bs_of_points. apply Forall_forall. intros b Hb. apply in_map_iff in Hb as (p & <- & Hp).
        apply of_point_box; [|assumption].
        assert (Y : in_boxes p (bs_of_points l)) by now apply of_points_in.
        apply X in Y as (Y & _). exact (bs_of_length n par p P Y).
      + split; [|intros p Hp; apply X in Hp as (Hp & s & Hs & Y); split; [|now left];
          cbn in Hs; apply bind_ok in Hs as (q & Hq & Hs); injection Hs as <-;
          apply point_eval_values in Hq as (_ & Hq); exists q; split; [assumption|]; apply Y; now apply in_boxes_point].
        intros p Hp. rewrite X.
        assert (L : (n <= length p)%nat) by (rewrite (bs_of_length n par p P Hp); lia). split.
        * intros (_ & s & Hs & Y). cbn in Hs. apply bind_ok in Hs as (q & Hq & Hs). injection Hs as <-.
          apply point_eval_values in Hq as (_ & Hq). exists q. split; [assumption|]. apply Y. now apply in_boxes_point.
        * intros (q & Hq & Hin). split; [assumption|]. exists [mdrange_of_point q]. cbn.
          rewrite (proj2 (point_eval_values n rs p q)); [|auto]. split; [reflexivity|].
          intros q' Hq'. apply in_boxes_point in Hq' as ->. assumption. }
  assert (Red : forall X : res bset, (if negb (forallb (fun b => b) (usedDims n rs)) || negb (forallb (fun b => b) (usedResults rs))
             then X else base_inverseMap (AFRoto n rs) acc par) = base_inverseMap (AFRoto n rs) acc par).
  { intros X. rewrite U, (usedResults_all n rs dcs D).
    assert (Y : forallb (fun b => b) (repeat true (length rs)) = true) by (clear; induction (length rs); cbn; auto).
    rewrite Y. reflexivity. }
  assert (E0 : bs_empty acc = false) by (destruct acc; [congruence|reflexivity]).
  assert (E1 : bs_empty par = false) by (destruct par; [congruence|reflexivity]).
  destruct (isInvertible_spec n rs F) as (inv & Hinv & Binv).
  assert (Base : roto_inverse m n rs = Ok None ->
    exists r, af_inverseMap m fuel (AFRoto n rs) acc par = Ok r /\ bs_of n r /\ preimage_on par rs acc r /\ extra r).
  { intros Hnull. destruct R as (r & Hr & R). exists r. split; [|assumption].
    destruct fuel; cbn [af_inverseMap]; rewrite E0, Hnull; cbn [andb bind]; rewrite Red; assumption. }
  destruct inv.
  - destruct (roto_inverse_spec m M n rs Hn F Hinv) as (ie & Hie & Li & Fi & Ni & V).
    destruct (proj1 Binv eq_refl) as (Ln & _). assert (Ekn : k = n) by congruence. rewrite Ekn in A, Lk, Hk. clear Ekn.
    assert (Wi : af_wf n n (AFRoto n ie)) by (cbn; auto).
    assert (Wf : af_wf n n (AFRoto n rs)) by (cbn; auto).
    destruct (roto_image_sub n n ie acc Wi A) as (s & Hs & _ & Is). specialize (Is Ni).
    assert (Vs : forall p, in_boxes p s <-> length p = n /\ exists q, affine_values p rs = Some q /\ in_boxes q acc).
    { intros p. rewrite (Is p). split.
      - intros (q & Hq & u & Hu & Hp). cbn in Hu. apply bind_ok in Hu as (p' & Hp' & Hu). injection Hu as <-.
        apply in_boxes_point in Hp as ->. apply point_eval_values in Hp' as (Lq & Hp').
        pose proof (bs_of_length n acc q A Hq) as Lq'.
        assert (Lp : length p' = n) by (apply values_nth in Hp' as (Lp' & _); lia).
        split; [assumption|]. exists q. split; [|assumption]. now apply V.
      - intros (Lp & q & Hq & Hin). pose proof (bs_of_length n acc q A Hin) as Lq.
        exists q. split; [assumption|]. exists [mdrange_of_point p]. split; [|now apply in_boxes_point].
        cbn. rewrite (proj2 (point_eval_values n ie q p)); [reflexivity|]. split; [lia|]. now apply V. }
    assert (Bs : bs_of n s).
    { cbn [af_map_set] in Hs. apply map_res_ok in Hs. clear - Hs Fi A Li Hn.
      induction Hs as [|b b' acc s Hb H IH]; [constructor|]. inversion A; subst.
      constructor; [|exact (IH H3)]. rewrite (roto_map_box_eq _ _ _ Fi H2) in Hb. injection Hb as <-.
      split; [|rewrite map_length; lia]. split; [destruct ie; [cbn in Hn; lia|discriminate]|].
      apply Forall_forall. intros r Hr. apply in_map_iff in Hr as (e & <- & He).
      rewrite Forall_forall in Fi. specialize (Fi e He). destruct H2 as ((_ & Ro) & Lb).
      rewrite Forall_forall in Ro.
      destruct Fi as [d Hd|c|d c Hd Hc]; cbn; unfold range_ok; cbn; try lia.
      - apply Ro. apply nth_In. lia.
      - assert (Z : range_ok (nth d b (mkRange 0 1))) by (apply Ro; apply nth_In; lia).
        unfold range_ok in Z. lia. }
    exists s. split; [|split; [assumption|split]].
    + assert (Rk : bs_rank acc = n) by (destruct acc as [|a acc']; [congruence|]; inversion A; subst; apply H1).
      assert (Rp : bs_rank par = n) by (destruct par as [|a par']; [congruence|]; inversion P; subst; apply H1).
      destruct (roto_image_sub n n rs s Wf Bs) as (t & Ht & Sub & _).
      assert (Ct : bs_contains t acc = true).
      { apply bs_contains_spec. intros q Hq. pose proof (bs_of_length n acc q A Hq) as Lq.
        destruct (affine_values_some n q ie) as (p & Hp & Lp); try lia.
        - eapply Forall_impl; [|exact Fi]. intros e He. apply (roto_expr_nodiv n e He).
        - eapply Forall_impl; [|exact Fi]. intros e He. apply (roto_expr_nodiv n e He).
        - rewrite Li in Lp. apply (V p q) in Hp; [|assumption|assumption].
          apply (Sub p q); [apply Vs; eauto|]. exists [mdrange_of_point q]. split; [|now apply in_boxes_point].
          cbn. rewrite (proj2 (point_eval_values n rs p q)); [reflexivity|]. split; [lia|assumption]. }
      destruct fuel; cbn [af_inverseMap]; rewrite E0, E1, Hie; cbn [andb bind negb];
        rewrite Rk, Rp, Nat.eqb_refl, Hs; cbn [bind]; rewrite Ht; cbn [bind]; rewrite Ct; reflexivity.
    + intros p Hp. rewrite Vs. split; [intros (_ & X); exact X|]. intros X.
      split; [exact (bs_of_length n par p P Hp)|assumption].
    + intros p Hp. apply Vs in Hp as (_ & Hq). split; [assumption|]. right.
      destruct (proj1 Binv eq_refl) as (_ & dcs2 & D2 & ND & _). now rewrite (shifts_dims n rs dcs2 D2).
  - apply Base. now apply inverse_null.
Qed.

(** Functions without constant results. *)
Lemma roto_preimage : forall n k rs dcs fuel acc par, (1 <= n)%nat -> (1 <= k)%nat -> length rs = k ->
  Forall2 (shift_of n) rs dcs -> bs_of k acc -> bs_of n par -> acc <> [] -> par <> [] ->
  exists r, af_inverseMap m (S fuel) (AFRoto n rs) acc par = Ok r /\ preimage_on par rs acc r.
Proof.
  intros n k rs dcs fuel acc par Hn Hk Lk D A P Na Np.
  destruct (forallb (fun b => b) (usedDims n rs)) eqn:U.
  { destruct (full_preimage n k rs dcs (S fuel) acc par) as (r & Hr & _ & X & _); auto. eauto. }
  pose proof (shifts_roto n rs dcs D) as F.
  destruct (usedDims_spec n rs dcs D) as (Lu & Us).
  assert (E0 : bs_empty acc = false) by (destruct acc; [congruence|reflexivity]).
  assert (E1 : bs_empty par = false) by (destruct par; [congruence|reflexivity]).
  set (n' := ones (usedDims n rs)).
  assert (Hn' : (1 <= n')%nat).
  { destruct dcs as [|(d & c) dcs]; [inversion D; subst; cbn in Hk; lia|].
    assert (Y : nth_error (usedDims n rs) d = Some true) by (apply Us; now left).
    pose proof (ones_lt _ _ Y). unfold n'. lia. }
  set (rs' := map (arename (newDim rs)) rs).
  set (dcs' := map (fun dc => (newDim rs (fst dc), snd dc)) dcs).
  assert (Dlt : forall d, In d (map fst dcs) -> (d < n)%nat).
  { intros d Hd. apply Us in Hd. rewrite <- Lu. apply nth_error_Some. congruence. }
  assert (D' : Forall2 (shift_of n') rs' dcs').
  { apply (rename_shifts n); [assumption|]. intros d Hd. rewrite (newDim_ones n rs dcs D); [|apply Dlt in Hd; lia].
    apply ones_lt. now apply Us. }
  assert (U' : forallb (fun b => b) (usedDims n' rs') = true).
  { destruct (usedDims_spec n' rs' dcs' D') as (Lu' & Us'). apply forallb_id. rewrite Lu'. intros x Hx.
    apply Us'. destruct (ones_onto (usedDims n rs) x Hx) as (d & Hd & E). apply Us in Hd.
    pose proof (Dlt d Hd). apply in_map_iff in Hd as ((d' & c) & Hdd & Hd). cbn in Hdd. subst d'.
    unfold dcs'. rewrite map_map. cbn [fst]. apply in_map_iff. exists (d, c). cbn [fst].
    split; [|assumption]. rewrite (newDim_ones n rs dcs D); [assumption|lia]. }
  set (par' := bs_slice par (usedDims n rs)).
  assert (P' : bs_of n' par' /\ forall q, in_boxes q par' <-> exists p, in_boxes p par /\ q = select (usedDims n rs) p).
  { unfold par', bs_slice. clear - P Lu Hn'. split.
    - unfold bs_of. apply Forall_forall. intros b Hb. apply in_map_iff in Hb as (b0 & <- & Hb).
      unfold bs_of in P. rewrite Forall_forall in P. apply (slice_box n); auto.
    - intros q. split.
      + intros (b & Hb & Hq). apply in_map_iff in Hb as (b0 & <- & Hb). unfold bs_of in P. rewrite Forall_forall in P.
        apply (slice_box n) in Hq as (p & Hp & ->); auto. exists p. split; [exists b0; auto|reflexivity].
      + intros (p & (b & Hb & Hp) & ->). exists (mdrange_slice b (usedDims n rs)).
        split; [apply in_map_iff; eauto|]. unfold bs_of in P. rewrite Forall_forall in P.
        apply (slice_box n); eauto. }
  destruct P' as (P' & S').
  destruct (full_preimage n' k rs' dcs' fuel acc par') as (r & Hr & Br & X & _); auto.
  { unfold rs'. now rewrite map_length. }
  { unfold par', bs_slice. destruct par; [congruence|discriminate]. }
  assert (Hb : af_build_map m n' rs' = Ok (AFRoto n' rs')).
  { apply build_roto; auto; [eapply shifts_roto; eauto|].
    pose proof (shifts_noconst n' rs' dcs' D') as NC.
    assert (Lr : length rs' = k) by (unfold rs'; now rewrite map_length).
    clear - NC Lr Hk. destruct rs' as [|e0 rs0]; [cbn in Lr; lia|]. inversion NC; subst. cbn. now rewrite H1. }
  assert (Vals : forall p, length p = n -> affine_values (select (usedDims n rs) p) rs' = affine_values p rs).
  { intros p Lp. rewrite (shifts_values n rs dcs p D) by lia.
    assert (Ls : length (select (usedDims n rs) p) = n').
    { unfold n'. assert (G : forall (bits : list bool) (l : point), length l = length bits -> length (select bits l) = ones bits).
      { clear. induction bits as [|[] bits IH]; intros [|x l] H; cbn in *; try discriminate; auto. }
      apply G. lia. }
    rewrite (shifts_values n' rs' dcs' _ D') by lia. f_equal. unfold dcs'. rewrite map_map. apply map_ext_in.
    intros (d & c) Hd. cbn [fst snd]. f_equal.
    assert (Hd' : In d (map fst dcs)) by (apply in_map_iff; exists (d, c); auto).
    rewrite (newDim_ones n rs dcs D); [|apply Dlt in Hd'; lia].
    assert (Y : nth_error (select (usedDims n rs) p) (ones (firstn d (usedDims n rs))) = nth_error p d)
      by (apply select_nth; [lia|now apply Us]).
    destruct (nth_error_some _ p d) as (v & Hv); [apply Dlt in Hd'; lia|].
    rewrite Hv in Y. now rewrite (nth_error_nth _ _ _ Y), (nth_error_nth _ _ _ Hv). }
  assert (Hinv : roto_inverse m n rs = Ok None).
  { apply inverse_null. destruct (isInvertible_spec n rs F) as (b & Hb' & B). rewrite Hb'. f_equal.
    destruct b; [|reflexivity]. exfalso. destruct (proj1 B eq_refl) as (_ & dcs2 & D2 & _ & I).
    assert (forallb (fun b => b) (usedDims n rs) = true); [|congruence].
    apply forallb_id. rewrite Lu. intros x Hx. apply Us.
    rewrite <- (shifts_dims n rs dcs D), (shifts_dims n rs dcs2 D2). auto. }
  assert (Merge : exists t, map_res (fun q => merge_dims (usedDims n rs) (snd q) (fst q)) (list_prod par r) = Ok t).
  { apply map_res_total. intros (b & b') Hbb. apply in_prod_iff in Hbb as (B1 & B2). cbn [fst snd].
    unfold bs_of in P, Br. rewrite Forall_forall in P, Br.
    destruct (merge_dims_spec (usedDims n rs) b' b) as (z & Hz & _); [destruct (P b B1); lia|destruct (Br b' B2); auto|].
    eauto. }
  destruct Merge as (t & Ht). exists t. split.
  - cbn [af_inverseMap]. rewrite E0, Hinv. cbn [andb bind]. rewrite U. cbn [negb orb].
    rewrite (newDim_total n rs dcs D). fold n'. fold rs'.
    rewrite (filter_noconst rs') by (eapply shifts_noconst; eauto). rewrite Hb. cbn [bind].
    rewrite (usedResults_all n rs dcs D), Lk, (bs_slice_all k acc A). fold par'. rewrite Hr. cbn [bind]. exact Ht.
  - intros p Hp. pose proof (bs_of_length n par p P Hp) as Lp.
    assert (Hsp : in_boxes (select (usedDims n rs) p) par') by (apply S'; eauto).
    specialize (X _ Hsp). rewrite (Vals p Lp) in X. rewrite <- X. clear X.
    unfold bs_of in P, Br. rewrite Forall_forall in P, Br. split.
    + intros (z & Hz & Hpz). destruct (map_res_in _ _ _ _ _ z Ht Hz) as ((b & b') & Hbb & Hm).
      apply in_prod_iff in Hbb as (B1 & B2). cbn [fst snd] in Hm.
      destruct (merge_dims_spec (usedDims n rs) b' b) as (z' & Hz' & _ & _ & S1 & _ & _);
        [destruct (P b B1); lia|destruct (Br b' B2); auto|].
      rewrite Hm in Hz'. injection Hz' as <-. exists b'. split; [assumption|]. now apply S1.
    + intros (b' & B2 & Hsb). destruct Hp as (b & B1 & Hpb).
      destruct (map_res_in2 _ _ _ _ _ (b, b') Ht) as (z & Hz & Hm); [apply in_prod; assumption|].
      cbn [fst snd] in Hm.
      destruct (merge_dims_spec (usedDims n rs) b' b) as (z' & Hz' & _ & _ & _ & S2 & _);
        [destruct (P b B1); lia|destruct (Br b' B2); auto|].
      rewrite Hm in Hz'. injection Hz' as <-. exists z. split; [assumption|]. now apply S2.
Qed.
End Mlir.
