(** Inverse access functions and preimages. *)
From Coq Require Import ZArith List Bool Lia ZifyBool.
From Verif Require Import RangeModel MDRangeModel Result BoxSetModel AccessModel Spec AccessSpec
  RangeProofs MDRangeProofs BoxListProofs BoxSetProofs AccessProofs AccessImageProofs ListTac.
Import ListNotations.
Open Scope Z_scope.

(** * Values of lists of expressions, by position *)

Lemma values_nth : forall p es q, affine_values p es = Some q <->
  length q = length es /\
  forall i e, nth_error es i = Some e -> exists v, nth_error q i = Some v /\ aeval p e = Some v.
Proof.
  intros p. induction es as [|e es IH]; intros q; cbn [affine_values].
  - split.
    + intros H. injection H as <-. split; [reflexivity|]. intros [|i] e H; discriminate.
    + intros (H & _). destruct q; [reflexivity|discriminate].
  - split.
    + destruct (aeval p e) as [v|] eqn:E; [|discriminate].
      destruct (affine_values p es) as [q'|]; [|discriminate]. intros H. injection H as <-.
      destruct (proj1 (IH q') eq_refl) as (L & X). split; [cbn; congruence|].
      intros [|i] e' H; cbn in *; [injection H as <-; eauto|eauto].
    + intros (L & X). destruct q as [|v q]; [discriminate|].
      destruct (X 0%nat e eq_refl) as (w & Hw & Ew). cbn in Hw. injection Hw as <-. rewrite Ew.
      rewrite (proj2 (IH q)); [reflexivity|]. split; [cbn in L; congruence|].
      intros i e' H. exact (X (S i) e' H).
Qed.

Lemma nth_ext_some : forall A (l l' : list A), length l = length l' ->
  (forall i x, nth_error l i = Some x -> nth_error l' i = Some x) -> l = l'.
Proof.
  intros A. induction l as [|x l IH]; intros [|y l'] L H; try discriminate; [reflexivity|].
  pose proof (H 0%nat x eq_refl) as X. cbn in X. injection X as ->. f_equal.
  apply IH; [cbn in L; congruence|]. intros i z Hz. exact (H (S i) z Hz).
Qed.

(** A result d + c that depends on a dimension. *)
Definition shift_of (n : nat) (e : aexpr) (dc : nat * Z) : Prop :=
  (fst dc < n)%nat /\ inductionVar e = Some (fst dc) /\ offset_of e = Ok (snd dc) /\
  adims e = [fst dc] /\ roto_expr n e /\
  forall p v, nth_error p (fst dc) = Some v -> aeval p e = Some (v + snd dc).

Definition is_const_b (e : aexpr) : bool := match e with AConst _ => true | _ => false end.

Lemma roto_shift : forall n e, roto_expr n e -> is_const_b e = false -> exists dc, shift_of n e dc.
Proof.
  intros n e H C. destruct H as [d Hd|c|d c Hd Hc]; [|discriminate|].
  - exists (d, 0). unfold shift_of. cbn. split; [assumption|]. do 3 (split; [reflexivity|]).
    split; [now constructor|]. intros p v ->. f_equal. lia.
  - exists (d, c). unfold shift_of. cbn. split; [assumption|]. do 3 (split; [reflexivity|]).
    split; [now constructor|]. intros p v ->. reflexivity.
Qed.

Lemma rotos_shift : forall n rs, Forall (roto_expr n) rs -> Forall (fun e => is_const_b e = false) rs ->
  exists dcs, Forall2 (shift_of n) rs dcs.
Proof.
  intros n rs H. induction H as [|e rs He H IH]; intros C; [exists []; constructor|].
  inversion C; subst. destruct (roto_shift n e He H2) as (dc & Hdc). destruct (IH H3) as (dcs & Hdcs).
  exists (dc :: dcs). now constructor.
Qed.

Lemma shifts_dims : forall n rs dcs, Forall2 (shift_of n) rs dcs -> flat_map adims rs = map fst dcs.
Proof.
  intros n rs dcs H. induction H as [|e dc rs dcs He H IH]; [reflexivity|]. cbn.
  destruct He as (_ & _ & _ & -> & _). now rewrite IH.
Qed.

(** * isInvertible *)

Lemma set_bit_in : forall u d x, nth_error (set_bit u d) x = Some true <->
  nth_error u x = Some true \/ (x = d /\ (d < length u)%nat).
Proof.
  intros u d x. unfold set_bit. destruct (Nat.eq_dec d x) as [->|N].
  - destruct (Nat.lt_ge_cases x (length u)) as [L|L].
    + rewrite set_nth_same by assumption. tauto.
    + assert (X : nth_error (set_nth u x true) x = None)
        by (apply nth_error_None; rewrite set_nth_length; lia).
      rewrite X. assert (Y : nth_error u x = None) by (apply nth_error_None; lia). rewrite Y.
      split; [discriminate|]. intros [H|(_ & H)]; [discriminate|lia].
  - rewrite set_nth_other by assumption. split; [auto|]. intros [H|(H & _)]; [assumption|congruence].
Qed.

Lemma loop_shifts : forall n rs dcs, Forall2 (shift_of n) rs dcs -> forall u, length u = n ->
  exists u', invertible_loop n rs u = Ok (Some u') /\ length u' = n /\
    forall x, nth_error u' x = Some true <-> nth_error u x = Some true \/ In x (map fst dcs).
Proof.
  intros n rs dcs H. induction H as [|e dc rs dcs He H IH]; intros u L.
  - exists u. split; [reflexivity|]. split; [assumption|]. cbn. tauto.
  - destruct He as (Hd & Hi & _). cbn [invertible_loop]. rewrite Hi.
    destruct (Nat.ltb_spec n (fst dc)); [lia|]. destruct (Nat.ltb_spec (fst dc) n); [|lia]. cbn [assert_ok bind].
    destruct (IH (set_bit u (fst dc))) as (u' & E & L' & X); [unfold set_bit; now rewrite set_nth_length|].
    exists u'. split; [assumption|]. split; [assumption|]. intros x. rewrite X, set_bit_in. cbn.
    intuition (subst; auto).
Qed.

Lemma repeat_false : forall n x, nth_error (repeat false n) x <> Some true.
Proof.
  intros n x H. apply nth_error_In, repeat_spec in H. discriminate.
Qed.

Lemma loop_none : forall n rs u, Forall (roto_expr n) rs -> length u = n ->
  ~ Forall (fun e => is_const_b e = false) rs -> invertible_loop n rs u = Ok None.
Proof.
  intros n rs u H. revert u. induction H as [|e rs He H IH]; intros u L N; [exfalso; apply N; constructor|].
  cbn [invertible_loop]. destruct He as [d Hd|c|d c Hd Hc]; cbn [inductionVar binary_of].
  - destruct (Nat.ltb_spec n d); [lia|]. destruct (Nat.ltb_spec d n); [|lia]. cbn [assert_ok bind].
    apply IH; [unfold set_bit; now rewrite set_nth_length|]. intros F. apply N. constructor; auto.
  - reflexivity.
  - destruct (Nat.ltb_spec n d); [lia|]. destruct (Nat.ltb_spec d n); [|lia]. cbn [assert_ok bind].
    apply IH; [unfold set_bit; now rewrite set_nth_length|]. intros F. apply N. constructor; auto.
Qed.

(** [isInvertible] is true when the results use every dimension exactly once. *)
Lemma isInvertible_spec : forall n rs, Forall (roto_expr n) rs ->
  exists b, roto_isInvertible n rs = Ok b /\
    (b = true <-> length rs = n /\ exists dcs, Forall2 (shift_of n) rs dcs /\ NoDup (map fst dcs)
                  /\ forall d, (d < n)%nat -> In d (map fst dcs)).
Proof.
  intros n rs H. unfold roto_isInvertible. destruct (Nat.eqb_spec n (length rs)) as [L|L]; cbn [negb].
  2:{ exists false. split; [reflexivity|]. split; [discriminate|]. intros (E & _). lia. }
  destruct (Forall_dec (fun e => is_const_b e = false) (fun e => bool_dec (is_const_b e) false) rs) as [F|F].
  - destruct (rotos_shift n rs H F) as (dcs & D).
    destruct (loop_shifts n rs dcs D (repeat false n) (repeat_length _ _)) as (u & -> & Lu & X).
    cbn [bind]. eexists. split; [reflexivity|]. split.
    + intros A. rewrite forallb_forall in A. split; [congruence|]. exists dcs. split; [assumption|].
      assert (I : forall d, (d < n)%nat -> In d (map fst dcs)).
      { intros d Hd. destruct (nth_error_some _ u d) as (b & Hb); [lia|].
        rewrite (A b (nth_error_In _ _ Hb)) in Hb. apply X in Hb as [Hb|Hb]; [|assumption].
        now apply repeat_false in Hb. }
      split; [|assumption]. apply (@NoDup_incl_NoDup _ (seq 0 n)); [apply seq_NoDup| |].
      * rewrite map_length, seq_length, L. clear - D. induction D; cbn; lia.
      * intros d Hd. apply I. apply in_seq in Hd. lia.
    + intros (_ & dcs' & D' & _ & I). apply forallb_forall. intros b Hb.
      apply In_nth_error in Hb as (d & Hd). assert ((d < n)%nat).
      { rewrite <- Lu. apply nth_error_Some. congruence. }
      assert (Y : nth_error u d = Some true).
      { apply X. right. rewrite <- (shifts_dims n rs dcs D), (shifts_dims n rs dcs' D'). auto. }
      congruence.
  - rewrite loop_none; [|assumption|apply repeat_length|assumption]. cbn [bind].
    exists false. split; [reflexivity|]. split; [discriminate|]. intros (_ & dcs & D & _).
    exfalso. apply F. clear - D. induction D as [|e dc rs dcs He D IH]; constructor; [|assumption].
    destruct He as (_ & Hi & _). destruct e; try reflexivity. discriminate.
Qed.

(** * inverse *)

Section Mlir.
Variable m : mlir.
Hypothesis M : mlir_ok m.

Definition back (i : nat) (c : Z) : aexpr := if c =? 0 then ADim i else AAdd (ADim i) (AConst (- c)).

Lemma mkSub_back : forall i c, mkSub m (ADim i) (AConst c) = back i c.
Proof.
  intros i c. unfold mkSub, mkAdd, mkMul, back. rewrite (canon_mulc m M), (canon_dc m M).
  destruct (Z.eqb_spec c 0), (Z.eqb_spec (c * -1) 0); try lia; [reflexivity|].
  do 3 f_equal. lia.
Qed.

Lemma back_eval : forall i c p v, nth_error p i = Some v -> aeval p (back i c) = Some (v - c).
Proof.
  intros i c p v H. unfold back. destruct (Z.eqb_spec c 0); cbn; rewrite H; f_equal; lia.
Qed.
Lemma back_roto : forall n i c, (i < n)%nat -> roto_expr n (back i c).
Proof. intros n i c H. unfold back. destruct (Z.eqb_spec c 0); constructor; lia. Qed.
Lemma back_dims : forall i c, adims (back i c) = [i].
Proof. intros i c. unfold back. destruct (c =? 0); reflexivity. Qed.
Lemma back_const : forall i c, is_const_b (back i c) = false.
Proof. intros i c. unfold back. destruct (c =? 0); reflexivity. Qed.

Lemma inverse_loop_spec : forall n rs dcs, Forall2 (shift_of n) rs dcs -> NoDup (map fst dcs) ->
  forall i rem pos, length pos = n ->
  exists rem' pos', inverse_loop m i rs rem pos = Ok (Some (rem', pos')) /\ length pos' = n /\
    (rem' = rem ++ map (fun q => back (fst q) (snd (snd q))) (combine (seq i (length dcs)) dcs)) /\
    (forall j d c, nth_error dcs j = Some (d, c) -> nth_error pos' d = Some (i + j)%nat) /\
    (forall d, ~ In d (map fst dcs) -> nth_error pos' d = nth_error pos d).
Proof.
  intros n rs dcs H. induction H as [|e dc rs dcs He H IH]; intros N i rem pos L.
  - exists rem, pos. cbn. rewrite app_nil_r. split; [reflexivity|]. split; [assumption|].
    split; [reflexivity|]. split; [|auto]. intros [|j] d c Hj; discriminate.
  - destruct dc as (d & c). destruct He as (Hd & Hi & Ho & _). cbn [fst snd] in *.
    cbn [inverse_loop]. rewrite Hi, Ho. cbn [bind]. destruct (Nat.ltb_spec d (length pos)); [|lia].
    cbn [assert_ok bind]. cbn [map fst] in N. inversion N; subst.
    destruct (IH H4 (S i) (rem ++ [mkSub m (ADim i) (AConst c)]) (set_nth pos d i)) as
      (rem' & pos' & E & L' & R & P & Q); [now rewrite set_nth_length|].
    exists rem', pos'. split; [assumption|]. split; [assumption|]. split.
    + rewrite R, <- app_assoc, mkSub_back. reflexivity.
    + split.
      * intros [|j] d' c' Hj; cbn in Hj.
        -- injection Hj as <- <-. rewrite Q by assumption. rewrite Nat.add_0_r. now apply set_nth_same.
        -- rewrite (P j d' c' Hj). f_equal. lia.
      * intros d' Hd'. cbn in Hd'. rewrite Q by tauto. apply set_nth_other. tauto.
Qed.

(** build leaves rotation-translations as they are. *)
Lemma build_roto : forall n es, (1 <= n)%nat -> Forall (roto_expr n) es -> existsb (fun e => negb (is_const_b e)) es = true ->
  af_build_map m n es = Ok (AFRoto n es).
Proof.
  intros n es Hn F E. unfold af_build_map.
  assert (S : map (simp m n) es = es).
  { clear E. induction F as [|e es He F IH]; [reflexivity|]. cbn. rewrite IH. f_equal.
    destruct He; [apply (simp_dim m M)|apply (simp_const m M)|now apply (simp_dc m M)]. }
  rewrite S. destruct (rotos_back n es F) as (rs & Hrs & R & P & L). rewrite Hrs. cbn [bind].
  unfold af_build0. destruct (Nat.eqb_spec n 0); [lia|]. cbn [andb].
  apply existsb_exists in E as (e & He & Ec).
  assert (X : exists a, In a rs /\ is_DConst a = false /\ is_constant_access a = false).
  { destruct (map_res_in2 _ _ _ _ _ e Hrs He) as (a & Ha & Hea). exists a. split; [assumption|].
    rewrite Forall_forall in F. specialize (F e He). destruct F as [d Hd|c|d c Hd Hc]; cbn in Hea.
    - destruct (d - 0)%nat in Hea; injection Hea as <-; auto.
    - discriminate.
    - destruct (d - 0)%nat in Hea; injection Hea as <-; auto. }
  destruct X as (a & Ha & A1 & A2).
  destruct (forallb is_DConst rs) eqn:E1; [rewrite forallb_forall in E1; rewrite (E1 a Ha) in A1; discriminate|].
  destruct (forallb is_constant_access rs) eqn:E2; [rewrite forallb_forall in E2; rewrite (E2 a Ha) in A2; discriminate|].
  assert (C : roto_canBeBuilt n rs = true).
  { unfold roto_canBeBuilt. destruct (Nat.eqb_spec n 0); [lia|]. destruct rs; [destruct Ha|]. cbn [negb andb].
    apply forallb_forall. now apply Forall_forall. }
  rewrite C.
  assert (A : map_res (da_affine m) rs = Ok es).
  { apply map_res_ok. apply map_res_ok in Hrs. clear - Hrs F M. induction Hrs as [|e a es rs Hea H IH]; [constructor|].
    inversion F; subst. constructor; [|auto]. destruct H2 as [d Hd|c|d c Hd Hc]; cbn in Hea.
    - destruct (d - 0)%nat in Hea; injection Hea as <-; reflexivity.
    - injection Hea as <-. reflexivity.
    - assert (a = DAdd (DDim d) (DConst c)) as -> by (destruct (d - 0)%nat in Hea; now injection Hea as <-).
      cbn. unfold mkAdd. rewrite (canon_dc m M). destruct (Z.eqb_spec c 0); [lia|]. reflexivity. }
  rewrite A. cbn [bind]. rewrite Hrs. cbn [bind]. rewrite C. reflexivity.
Qed.

Lemma roto_inverse_spec : forall n rs, (1 <= n)%nat -> Forall (roto_expr n) rs ->
  roto_isInvertible n rs = Ok true ->
  exists inv, roto_inverse m n rs = Ok (Some (AFRoto n inv)) /\ length inv = n /\
    Forall (roto_expr n) inv /\ NoDup (flat_map adims inv) /\
    forall p q, length p = n -> length q = n ->
      (affine_values p rs = Some q <-> affine_values q inv = Some p).
Proof.
  intros n rs Hn F T. destruct (isInvertible_spec n rs F) as (b & Hb & B). rewrite T in Hb. injection Hb as <-.
  destruct (proj1 B eq_refl) as (L & dcs & D & N & I). clear B.
  assert (Ld : length dcs = n) by (rewrite <- L; clear - D; induction D; cbn; lia).
  unfold roto_inverse. rewrite T. cbn [bind negb].
  destruct (inverse_loop_spec n rs dcs D N 0 [] (repeat 0%nat (length rs))) as (rem & pos & -> & Lp & R & P & _);
    [now rewrite repeat_length|].
  cbn [bind app] in *.
  assert (Rn : forall j d c, nth_error dcs j = Some (d, c) -> nth_error rem j = Some (back j c)).
  { intros j d c Hj. rewrite R.
    assert (Hs : nth_error (combine (seq 0 (length dcs)) dcs) j = Some (j, (d, c))).
    { clear - Hj. rewrite <- (Nat.add_0_l j) at 2. generalize 0%nat as k. revert j Hj.
      induction dcs as [|x dcs IH]; intros [|j] Hj k; cbn in *; try discriminate.
      - injection Hj as ->. now rewrite Nat.add_0_r.
      - rewrite IH by assumption. do 2 f_equal. lia. }
    exact (map_nth_error (fun q => back (fst q) (snd (snd q))) _ _ Hs). }
  assert (Dn : forall d, (d < n)%nat -> exists j c, nth_error dcs j = Some (d, c) /\ nth_error pos d = Some j).
  { intros d Hd. apply I in Hd. apply in_map_iff in Hd as ((d' & c) & <- & Hd).
    apply In_nth_error in Hd as (j & Hj). exists j, c. split; [assumption|]. exact (P j d' c Hj). }
  assert (X : exists inv, map_res (fun i => of_option (nth_error rem i)) pos = Ok inv).
  { apply map_res_total. intros j Hj. apply In_nth_error in Hj as (d & Hd).
    assert ((d < n)%nat) by (rewrite <- Lp; apply nth_error_Some; congruence).
    destruct (Dn d H) as (j' & c & Hj' & Hp). rewrite Hd in Hp. injection Hp as <-.
    rewrite (Rn j d c Hj'). cbn. eauto. }
  destruct X as (inv & Hinv). rewrite Hinv. cbn [bind].
  pose proof (map_res_length _ _ _ _ _ Hinv) as Li. rewrite Lp in Li.
  assert (In' : forall d, (d < n)%nat -> exists j c, nth_error dcs j = Some (d, c) /\
            nth_error pos d = Some j /\ nth_error inv d = Some (back j c) /\ (j < n)%nat).
  { intros d Hd. destruct (Dn d Hd) as (j & c & Hj & Hp). exists j, c. split; [assumption|]. split; [assumption|].
    apply map_res_ok in Hinv.
    assert (Y : exists e, nth_error inv d = Some e /\ of_option (nth_error rem j) = Ok e).
    { clear - Hinv Hp. revert d Hp. induction Hinv as [|x y l l' Hxy H IH]; intros [|d] Hp; cbn in *; try discriminate.
      - injection Hp as ->. eauto.
      - auto. }
    destruct Y as (e & He & Hr). rewrite (Rn j d c Hj) in Hr. cbn in Hr. injection Hr as <-.
    split; [assumption|]. rewrite <- Ld. apply nth_error_Some. congruence. }
  assert (Fi : Forall (roto_expr n) inv).
  { apply Forall_forall. intros e He. apply In_nth_error in He as (d & Hd).
    assert ((d < n)%nat) by (rewrite <- Li; apply nth_error_Some; congruence).
    destruct (In' d H) as (j & c & _ & _ & He & Hj). rewrite Hd in He. injection He as ->. now apply back_roto. }
  exists inv. split.
  { rewrite build_roto; auto. apply existsb_exists. destruct (In' 0%nat) as (j & c & _ & _ & He & Hj); [lia|].
    exists (back j c). split; [eapply nth_error_In; eauto|]. now rewrite back_const. }
  split; [assumption|]. split; [assumption|]. split.
  { assert (Em : flat_map adims inv = pos).
    { assert (G : forall d e, nth_error inv d = Some e -> exists j, nth_error pos d = Some j /\ adims e = [j]).
      { intros d e He. assert ((d < n)%nat) by (rewrite <- Li; apply nth_error_Some; congruence).
        destruct (In' d H) as (j & c & _ & Hp & He' & _). rewrite He in He'. injection He' as ->.
        exists j. split; [assumption|]. apply back_dims. }
      assert (LL : length inv = length pos) by lia.
      clear - G LL. revert pos LL G. induction inv as [|e inv IH]; intros [|j pos] LL G; try discriminate; [reflexivity|].
      cbn. destruct (G 0%nat e eq_refl) as (j' & Hj & Ha). cbn in Hj. injection Hj as <-. rewrite Ha. cbn. f_equal.
      apply IH; [cbn in LL; lia|]. intros d e' He'. exact (G (S d) e' He'). }
    rewrite Em. apply NoDup_nth_error. intros d d' Hd Hdd.
    rewrite Lp in Hd. destruct (Dn d Hd) as (j & c & Hj & Hp). rewrite Hp in Hdd. symmetry in Hdd.
    assert ((d' < n)%nat) by (rewrite <- Lp; apply nth_error_Some; congruence).
    destruct (Dn d' H) as (j' & c' & Hj' & Hp'). congruence. }
  assert (Rs : forall j d c, nth_error dcs j = Some (d, c) -> exists e, nth_error rs j = Some e /\
             forall p v, nth_error p d = Some v -> aeval p e = Some (v + c)).
  { clear - D. intros j d c. revert j. induction D as [|e dc rs dcs He D IH]; intros [|j] Hj; cbn in *; try discriminate.
    - injection Hj as ->. exists e. split; [reflexivity|]. apply He.
    - auto. }
  intros p q Hp Hq. split.
  - intros V. apply values_nth in V as (_ & V). apply values_nth. split; [lia|].
    intros d e He. assert (Hd : (d < n)%nat) by (rewrite <- Li; apply nth_error_Some; congruence).
    destruct (In' d Hd) as (j & c & Hj & _ & He' & Hjn). rewrite He in He'. injection He' as ->.
    destruct (nth_error_some _ p d) as (v & Hv); [lia|]. exists v. split; [assumption|].
    destruct (Rs j d c Hj) as (e & He' & Ev). destruct (V j e He') as (w & Hw & Ew).
    rewrite (Ev p v Hv) in Ew. injection Ew as <-. rewrite (back_eval j c q _ Hw). f_equal. lia.
  - intros V. apply values_nth in V as (_ & V). apply values_nth. split; [lia|].
    intros j e He. assert (Hjn : (j < n)%nat) by (rewrite <- L; apply nth_error_Some; congruence).
    destruct (nth_error_some _ dcs j) as ((d & c) & Hj); [lia|].
    destruct (Rs j d c Hj) as (e' & He' & Ev). rewrite He in He'. injection He' as <-.
    assert (Hd : (d < n)%nat).
    { clear - D Hj. revert j Hj. induction D as [|e dc rs dcs He D IH]; intros [|j] Hj; cbn in *; try discriminate.
      - injection Hj as ->. apply He.
      - eauto. }
    destruct (In' d Hd) as (j' & c' & Hj' & Hp' & He' & _).
    assert (j' = j) by (pose proof (P j d c Hj) as ZZ; cbn [Nat.add] in ZZ; congruence). subst j'.
    rewrite Hj in Hj'. injection Hj' as <-.
    destruct (V d _ He') as (v & Hv & Ev'). destruct (nth_error_some _ q j) as (w & Hw); [lia|].
    rewrite (back_eval j c q w Hw) in Ev'. injection Ev' as <-. exists w. split; [assumption|].
    rewrite (Ev p _ Hv). f_equal. lia.
Qed.

Lemma inverse_null : forall n rs, roto_isInvertible n rs = Ok false -> roto_inverse m n rs = Ok None.
Proof. intros n rs H. unfold roto_inverse. now rewrite H. Qed.

Lemma maps_to_values : forall n rs p q, (n <= length p)%nat ->
  affine_values p rs = Some q -> maps_to (AFRoto n rs) p q.
Proof.
  intros n rs p q L H. apply singleton_maps. cbn.
  rewrite (proj2 (point_eval_values n rs p q)); [reflexivity|]. auto.
Qed.

Lemma maps_to_inj : forall f p q q', maps_to f p q -> maps_to f p q' -> q = q'.
Proof.
  intros f p q q' (s & Hs & H) (s' & Hs' & H'). rewrite Hs in Hs'. injection Hs' as <-.
  apply H'. apply H. reflexivity.
Qed.

Lemma maps_to_values_iff : forall n rs p q, (n <= length p)%nat -> Forall (roto_expr n) rs ->
  (maps_to (AFRoto n rs) p q <-> affine_values p rs = Some q).
Proof.
  intros n rs p q L F. split; [|now apply maps_to_values].
  intros H. destruct (affine_values_some n p rs) as (q' & Hq' & _); auto.
  - eapply Forall_impl; [|exact F]. intros e He. apply (roto_expr_nodiv n e He).
  - eapply Forall_impl; [|exact F]. intros e He. apply (roto_expr_nodiv n e He).
  - rewrite Hq'. f_equal. eapply maps_to_inj; [|exact H]. now apply maps_to_values.
Qed.
End Mlir.
