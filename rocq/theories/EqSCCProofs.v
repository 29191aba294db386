(** Proofs on the solution of a component by substitution. *)
From Coq Require Import ZArith List Bool Arith Lia Permutation.
From Verif Require Import RangeModel MDRangeModel BoxSetModel BoxSetProofs Spec Result AccessModel EqModel EqSpec EqSubstProofs.
Import ListNotations.
Open Scope Z_scope.

(** * Operations and their numbers *)
Lemma mem_spec : forall n l, mem n l = true <-> In n l.
Proof.
  intros n l. unfold mem. rewrite existsb_exists. split.
  - intros (x & H & E). apply Nat.eqb_eq in E. congruence.
  - intros H. exists n. split; auto. apply Nat.eqb_refl.
Qed.
Lemma mem_false : forall n l, mem n l = false <-> ~ In n l.
Proof. intros n l. rewrite <- mem_spec. destruct (mem n l); split; congruence. Qed.

Lemma op_of_in : forall l k i, op_of l k = Some i -> In (k, i) l.
Proof.
  induction l as [|[k' i'] l IH]; intros k i H; cbn in H; [discriminate|].
  destruct (Nat.eqb_spec k' k); [|cbn; auto]. injection H as <-. subst. cbn. auto.
Qed.
Lemma in_op_of : forall l k i, NoDup (map fst l) -> In (k, i) l -> op_of l k = Some i.
Proof.
  induction l as [|[k' i'] l IH]; intros k i N H; cbn in *; [destruct H|].
  inversion N as [|x y N1 N2]; subst. destruct H as [Q|H].
  - injection Q as -> ->. rewrite Nat.eqb_refl. auto.
  - destruct (Nat.eqb_spec k' k); auto. subst. exfalso. apply N1.
    apply in_map_iff. exists (k, i). auto.
Qed.
Lemma op_of_app : forall a b k i, op_of a k = Some i -> op_of (a ++ b) k = Some i.
Proof.
  induction a as [|[k' i'] a IH]; intros b k i H; cbn in *; [discriminate|].
  destruct (k' =? k)%nat; auto.
Qed.

Lemma number_fst : forall l n, map fst (number n l) = seq n (length l).
Proof.
  unfold number. induction l as [|x l IH]; intros n; cbn; auto. f_equal. apply IH.
Qed.
Lemma number_snd : forall l n, map snd (number n l) = l.
Proof.
  unfold number. induction l as [|x l IH]; intros n; cbn; auto. f_equal. apply IH.
Qed.
Lemma number_in : forall l n k i, In (k, i) (number n l) -> In i l /\ (n <= k < n + length l)%nat.
Proof.
  intros l n k i H. split.
  - rewrite <- (number_snd l n). apply in_map_iff. exists (k, i). auto.
  - apply in_seq. rewrite <- number_fst. apply in_map_iff. exists (k, i). auto.
Qed.
Lemma number_out : forall l n i, In i l -> exists k, In (k, i) (number n l).
Proof.
  intros l n i H. rewrite <- (number_snd l n) in H. apply in_map_iff in H.
  destruct H as ([k j] & <- & H). eauto.
Qed.

Lemma nodup_app : forall A (a b : list A), NoDup a -> NoDup b -> (forall x, In x a -> In x b -> False) ->
  NoDup (a ++ b).
Proof.
  induction a as [|x a IH]; intros b Na Nb D; cbn; auto.
  inversion Na; subst. constructor.
  - rewrite in_app_iff. intros [Q|Q]; [contradiction|]. eapply D; [left; reflexivity|exact Q].
  - apply IH; auto. intros y Hy. apply D. right. auto.
Qed.

Lemma ops_of_fst : forall l ids, incl ids (map fst l) -> NoDup (map fst l) -> map fst (ops_of l ids) = ids.
Proof.
  intros l ids. induction ids as [|k ids IH]; intros H N; cbn; auto.
  assert (K : In k (map fst l)) by (apply H; cbn; auto).
  apply in_map_iff in K. destruct K as ([k' i] & <- & K). cbn [fst].
  rewrite (in_op_of _ _ _ N K). cbn. f_equal. apply IH; auto. intros x Hx. apply H. cbn. auto.
Qed.
Lemma ops_of_op : forall l ids k, NoDup ids -> In k ids -> op_of (ops_of l ids) k = op_of l k.
Proof.
  intros l ids k N H. induction ids as [|k' ids IH]; [destruct H|].
  inversion N as [|x y N1 N2]; subst. cbn [ops_of flat_map].
  change (flat_map _ ids) with (ops_of l ids).
  assert (NI : forall k0, ~ In k0 ids -> op_of (ops_of l ids) k0 = None).
  { clear. intros k0 H. unfold ops_of. induction ids as [|a ids IH]; cbn; auto.
    destruct (op_of l a); cbn.
    - destruct (Nat.eqb_spec a k0); [exfalso; apply H; cbn; auto|]. apply IH. intros Q. apply H. cbn. auto.
    - apply IH. intros Q. apply H. cbn. auto. }
  destruct H as [->|H].
  - destruct (op_of l k) eqn:E; cbn; [rewrite Nat.eqb_refl; auto|]. apply NI. auto.
  - assert (k' <> k) by congruence.
    destruct (op_of l k'); cbn; auto. destruct (Nat.eqb_spec k' k); [congruence|]. auto.
Qed.

Lemma solve_agree : forall explicit l l' c,
  (forall k, In k (map c_op c) -> op_of l k = op_of l' k) -> solve explicit l c = solve explicit l' c.
Proof.
  intros explicit l l' c. induction c as [|c rest IH]; intros H; auto.
  destruct rest as [|c2 rest].
  - cbn. rewrite (H (c_op c)); cbn; auto.
  - change (solve explicit l (c :: c2 :: rest)) with
      (r <- solve explicit l (c2 :: rest) ;;
       if fst r then i <- of_option (op_of l (c_op c)) ;; substitute explicit i c (snd r) []
       else Ok (false, [])).
    change (solve explicit l' (c :: c2 :: rest)) with
      (r <- solve explicit l' (c2 :: rest) ;;
       if fst r then i <- of_option (op_of l' (c_op c)) ;; substitute explicit i c (snd r) []
       else Ok (false, [])).
    rewrite IH; [|intros k Hk; apply H; right; exact Hk].
    rewrite (H (c_op c)); [reflexivity|]. cbn. auto.
Qed.

(** * The invariant *)
Section Component.
Variables (M : meaning) (explicit : inst -> option inst) (cycles_of : ops -> list (list cyc)).
Hypothesis EX : explicit_ok M explicit.
Hypothesis GC : good_cycles explicit cycles_of.
Variable eqs : list inst.

Definition all_hold (st : nat -> point -> val M) (o : ops) : Prop :=
  forall k i, In (k, i) o -> holds M st i.
Definition live_hold (st : nat -> point -> val M) (s : state) : Prop :=
  forall k i, In (k, i) (s_ops s) -> ~ In k (s_erased s) -> holds M st i.

Record inv (s : state) : Prop := mkInv {
  v_nodup : NoDup (map fst (s_ops s));
  v_fresh : forall k, In k (map fst (s_ops s)) -> (k < s_next s)%nat;
  v_orig : exists more, s_ops s = number 0 eqs ++ more;
  v_new : NoDup (s_new s) /\ incl (s_new s) (map fst (s_ops s)) /\ (forall k, In k (s_new s) -> (length eqs <= k)%nat);
  v_erased : incl (s_erased s) (map fst (s_ops s));
  v_live : forall st, live_hold st s -> all_hold st (s_ops s);
  v_all : forall st, solution M st eqs -> all_hold st (s_ops s) }.

(** The equations found for the next search. *)
Definition cur_ok (s : state) : Prop :=
  NoDup (s_cur s) /\ incl (s_cur s) (map fst (s_ops s)) /\
  (forall k, In k (s_cur s) -> (length eqs <= k)%nat /\ ~ In k (s_new s) /\ ~ In k (s_erased s)).

Lemma v_next : forall s, inv s -> (length eqs <= s_next s)%nat.
Proof.
  intros s I. destruct (v_orig s I) as [more Q].
  destruct (Nat.eq_dec (length eqs) 0) as [Z|Z]; [lia|].
  assert (K : In (length eqs - 1)%nat (map fst (s_ops s))).
  { rewrite Q, map_app, number_fst. apply in_app_iff. left. apply in_seq. lia. }
  apply (v_fresh s I) in K. lia.
Qed.

Lemma add_ops_inv : forall s ns, inv s ->
  (forall st, all_hold st (s_ops s) -> Forall (holds M st) ns) -> inv (add_ops s ns).
Proof.
  intros s ns I H. pose proof (v_next s I) as LN. destruct I as [N F O Nw Er L A].
  assert (AH : forall st, all_hold st (s_ops s) -> all_hold st (s_ops s ++ number (s_next s) ns)).
  { intros st Ha k i Hi. apply in_app_iff in Hi. destruct Hi as [Hi|Hi]; [eapply Ha; eauto|].
    apply number_in in Hi. destruct Hi as [Hi _]. specialize (H st Ha). rewrite Forall_forall in H. auto. }
  constructor; cbn [add_ops s_ops s_cur s_new s_erased s_next].
  - rewrite map_app, number_fst. apply nodup_app; auto.
    + apply seq_NoDup.
    + intros k Hk Hs. apply F in Hk. apply in_seq in Hs. lia.
  - intros k Hk. rewrite map_app, number_fst in Hk. apply in_app_iff in Hk.
    destruct Hk as [Hk|Hk]; [apply F in Hk; lia|]. apply in_seq in Hk. lia.
  - destruct O as [more ->]. exists (more ++ number (s_next s) ns). rewrite app_assoc. auto.
  - destruct Nw as (N1 & N2 & N3). repeat split; auto.
    intros k Hk. rewrite map_app. apply in_app_iff. left. auto.
  - intros k Hk. rewrite map_app. apply in_app_iff. left. auto.
  - intros st Hl. apply AH, L. intros k i Hi Hk. apply (Hl k i); auto. cbn. apply in_app_iff. auto.
  - intros st Hs. apply AH, A. auto.
Qed.

Lemma diff_all : forall rk ns s, bs_of rk s -> (forall n, In n ns -> bs_of rk (i_idx n)) ->
  bs_of rk (fold_left (fun r n => bs_diff r (i_idx n)) ns s) /\
  forall p, in_boxes p (fold_left (fun r n => bs_diff r (i_idx n)) ns s) <->
    in_boxes p s /\ forall n, In n ns -> ~ in_boxes p (i_idx n).
Proof.
  intros rk ns. induction ns as [|n ns IH]; intros s Hs Hn; cbn.
  - split; [auto|]. intros p. split; [|tauto]. intros H. split; [auto|intros n []].
  - destruct (bs_diff_spec rk (i_idx n) s Hs (Hn n (or_introl eq_refl))) as [A B].
    destruct (IH (bs_diff s (i_idx n)) A) as [C D]; [intros m Hm; apply Hn; right; auto|].
    split; auto. intros p. rewrite D, B. split.
    + intros [[H1 H2] H3]. split; auto. intros m [<-|Hm]; auto.
    + intros [H1 H2]. split; [split; auto|]; intros; apply H2; cbn; auto.
Qed.

(** A cycle of live operations that has been solved. *)
Lemma replace_first_inv : forall s c ns s', inv s -> s_cur s = [] ->
  NoDup (map c_op c) -> reading_cycle explicit (s_ops s) c ->
  (forall k, In k (map c_op c) -> ~ In k (s_erased s)) ->
  solve explicit (s_ops s) c = Ok (true, ns) ->
  (forall f i, hd_error c = Some f -> op_of (s_ops s) (c_op f) = Some i -> t_rank (i_tmpl i) = O -> ns <> []) ->
  replace_first s c ns = Ok s' -> inv s' /\ cur_ok s'.
Proof.
  intros s c ns s' I CU ND RC NE SV SC H.
  destruct c as [|f rest]; [discriminate|].
  cbn [replace_first] in H. apply bind_ok in H. destruct H as (i & Hi & H). apply of_option_inv in Hi.
  assert (Wi : wf_inst i). { inversion RC; congruence. }
  (* the operations of the rest of the cycle *)
  assert (RH : forall st (P : nat -> Prop), (forall k, In k (map c_op rest) -> P k) ->
    (forall k j, In (k, j) (s_ops s) -> P k -> holds M st j) ->
    forall n, In n ns -> stands_for M st i n).
  { intros st P HP Hh n Hn. eapply (solve_stands M explicit EX st (s_ops s) (f :: rest) RC true ns SV);
      [|reflexivity|exact Hi|exact Hn].
    intros c' j Hc' Hj. cbn in Hc'. apply (Hh (c_op c')). { apply op_of_in. auto. }
    apply HP. apply in_map. auto. }
  assert (AN : forall st, all_hold st (s_ops s) -> Forall (holds M st) ns).
  { intros st Ha. apply Forall_forall. intros n Hn. eapply stands_for_holds.
    - eapply (RH st (fun _ => True)); [auto| |exact Hn]. intros k j Hj _. eapply Ha; eauto.
    - eapply Ha. apply op_of_in. exact Hi. }
  pose proof (add_ops_inv s ns I AN) as I1.
  set (s1 := add_ops s ns) in *.
  set (remaining := fold_left (fun r n => bs_diff r (i_idx n)) ns (i_idx i)) in *.
  assert (IDS : map fst (s_ops s1) = map fst (s_ops s) ++ seq (s_next s) (length ns)).
  { unfold s1. cbn. rewrite map_app, number_fst. auto. }
  pose proof (v_next s I) as LN.
  assert (KF : In (c_op f) (map fst (s_ops s))).
  { apply in_map_iff. exists (c_op f, i). split; auto. apply op_of_in. auto. }
  (* when everything but the first equation holds *)
  assert (FH : forall st,
     (forall k j, In (k, j) (s_ops s) -> ~ In k (s_erased s) -> k <> c_op f -> holds M st j) ->
     Forall (holds M st) ns ->
     (i_idx i <> [] -> remaining <> [] -> forall p, in_boxes p remaining -> holds_at M st (i_tmpl i) p) ->
     holds M st i).
  { intros st Hl Hns Hr p Hp.
    assert (ST : forall n, In n ns -> stands_for M st i n).
    { apply (RH st (fun k => ~ In k (s_erased s) /\ k <> c_op f)).
      - intros k Hk. split; [apply NE; cbn; auto|]. intros ->. cbn in ND. inversion ND; contradiction.
      - intros k j Hj [H1 H2]. eauto. }
    rewrite Forall_forall in Hns. unfold iterations in Hp.
    destruct (t_rank (i_tmpl i)) as [|rk] eqn:R.
    - destruct Hp as [<-|[]]. pose proof (SC f i eq_refl Hi R) as NN.
      destruct ns as [|n ns0]; [congruence|].
      destruct (ST n (or_introl eq_refl)) as (Rn & _ & Hn).
      assert (In [] (iterations n)). { unfold iterations. rewrite Rn, R. cbn. auto. }
      apply (Hn [] H0). apply (Hns n (or_introl eq_refl)). auto.
    - assert (Wb : bs_of (S rk) (i_idx i) /\ i_idx i <> []). { unfold wf_inst in Wi. rewrite R in Wi. exact Wi. }
      assert (Bn : forall n, In n ns -> bs_of (S rk) (i_idx n)).
      { intros n Hn. destruct (ST n Hn) as (_ & B & _). rewrite R in B. apply B. congruence. }
      destruct (diff_all (S rk) ns (i_idx i) (proj1 Wb) Bn) as [DB DI]. fold remaining in DB, DI.
      apply in_bs_points in Hp.
      destruct (existsb (fun n => bs_mem (i_idx n) p) ns) eqn:E.
      + apply existsb_exists in E. destruct E as (n & Hn & E). apply bs_mem_spec in E.
        destruct (ST n Hn) as (Rn & _ & HH).
        assert (Hit : In p (iterations n)).
        { unfold iterations. rewrite Rn, R. apply in_bs_points. auto. }
        apply (HH p Hit). apply (Hns n Hn). auto.
      + assert (Pr : in_boxes p remaining).
        { apply DI. split; auto. intros n Hn Q. apply bs_mem_spec in Q.
          assert (existsb (fun n => bs_mem (i_idx n) p) ns = true); [|congruence].
          apply existsb_exists. eauto. }
        apply Hr; auto; [apply Wb|]. intros Q. rewrite Q in Pr. destruct Pr as (b & [] & _). }
  (* the state after the clone with the remaining iterations *)
  apply bind_ok in H. destruct H as (s2 & H2 & H). injection H as <-.
  assert (K2 : inv s2 /\ s_new s2 = s_new s /\ s_erased s2 = s_erased s /\
    (exists more, s_ops s2 = s_ops s1 ++ more /\ map fst more = s_cur s2 /\
       (forall k, In k (s_cur s2) -> (s_next s + length ns <= k)%nat)) /\ NoDup (s_cur s2) /\
    (forall st, (forall k j, In (k, j) (s_ops s2) -> In k (s_cur s2) -> holds M st j) ->
       i_idx i <> [] -> remaining <> [] -> forall p, in_boxes p remaining -> holds_at M st (i_tmpl i) p)).
  { destruct (bs_empty (i_idx i) || bs_empty remaining) eqn:E.
    - injection H2 as <-. split; [exact I1|]. split; [auto|]. split; [auto|]. split.
      { exists []. rewrite app_nil_r. unfold s1. cbn. rewrite CU. split; [auto|]. split; [auto|]. intros k []. }
      unfold s1. cbn. rewrite CU. split; [constructor|].
      intros st _ H1 H3. exfalso. apply orb_true_iff in E. destruct E as [E|E].
      + destruct (i_idx i); [congruence|discriminate].
      + destruct remaining; [congruence|discriminate].
    - apply bind_ok in H2. destruct H2 as (k & Hk & H2). injection H2 as <-.
      destruct (set_indices_idx _ _ _ _ Hk) as [Tk _].
      assert (Ri : t_rank (i_tmpl i) <> O).
      { intros R. unfold wf_inst in Wi. rewrite R in Wi. rewrite Wi in E. discriminate. }
      assert (KS : forall p, In p (iterations k) <-> in_boxes p remaining).
      { intros p. eapply set_indices_iter; eauto. }
      assert (SUB : forall st, all_hold st (s_ops s1) -> forall p, in_boxes p remaining -> holds_at M st (i_tmpl i) p).
      { intros st Ha p Hp.
        assert (Hs : all_hold st (s_ops s)).
        { intros k0 j Hj. apply (Ha k0 j). unfold s1. cbn. apply in_app_iff. auto. }
        assert (Hh : holds M st i) by (eapply Hs, op_of_in, Hi).
        apply Hh. unfold iterations. unfold wf_inst in Wi. destruct (t_rank (i_tmpl i)) as [|rk] eqn:R; [congruence|].
        apply in_bs_points.
        assert (Bn : forall n, In n ns -> bs_of (S rk) (i_idx n)).
        { intros n Hn. assert (S0 : stands_for M st i n).
          { apply (RH st (fun _ => True)); auto. intros k0 j Hj _. eapply Hs; eauto. }
          destruct S0 as (_ & B & _). rewrite R in B. apply B. congruence. }
        destruct (diff_all (S rk) ns (i_idx i) (proj1 Wi) Bn) as [_ DI]. apply DI in Hp. tauto. }
      assert (I2 : inv (add_ops s1 [k])).
      { apply add_ops_inv; auto. intros st Ha. constructor; [|constructor].
        intros p Hp. rewrite Tk. apply (SUB st Ha). apply KS. auto. }
      split.
      { destruct I2 as [N F O Nw Er L A]. constructor; auto. }
      cbn. split; [auto|]. split; [auto|]. split.
      { exists [((s_next s + length ns)%nat, k)]. split; [reflexivity|]. split; [reflexivity|].
        intros k0 [<-|[]]. lia. }
      split; [constructor; [intros []|constructor]|].
      intros st Hh _ _ p Hp. rewrite <- Tk. apply (Hh (s_next s + length ns)%nat k); [|cbn; auto|apply KS; auto].
      apply in_app_iff. right. cbn. auto. }
  destruct K2 as (I2 & Nw2 & Er2 & (more & O2 & M2 & C2) & CN & HR).
  assert (KF2 : In (c_op f) (map fst (s_ops s2))).
  { rewrite O2, map_app, IDS, !in_app_iff. auto. }
  split.
  - destruct I2 as [N F O Nw Er L A]. constructor; cbn [s_ops s_cur s_new s_erased s_next]; auto.
    + rewrite Nw2 in *. destruct Nw as (N1 & N2 & N3). destruct (v_new s I) as (_ & N2' & _).
      split; [|split].
      * apply nodup_app; auto; [apply seq_NoDup|]. intros k Hk Hs. apply N2' in Hk.
        apply (v_fresh s I) in Hk. apply in_seq in Hs. lia.
      * intros k Hk. apply in_app_iff in Hk. destruct Hk as [Hk|Hk]; auto.
        rewrite O2, map_app, IDS, !in_app_iff. auto.
      * intros k Hk. apply in_app_iff in Hk. destruct Hk as [Hk|Hk]; auto. apply in_seq in Hk. lia.
    + intros k [<-|Hk]; auto.
    + intros st Hl. apply L.
      assert (LH : forall k j, In (k, j) (s_ops s2) -> ~ In k (s_erased s2) -> k <> c_op f -> holds M st j).
      { intros k j Hj He Hf. apply (Hl k j); auto. cbn. intros [Q|Q]; [congruence|auto]. }
      assert (FI : holds M st i).
      { apply FH.
        - intros k j Hj He Hf. apply (LH k j); auto; [|rewrite Er2; auto].
          rewrite O2. unfold s1. cbn. rewrite !in_app_iff. auto.
        - apply Forall_forall. intros n Hn. destruct (number_out ns (s_next s) n Hn) as [k Hk].
          pose proof (number_in _ _ _ _ Hk) as [_ Hr].
          apply (LH k n).
          + rewrite O2. unfold s1. cbn. rewrite !in_app_iff. auto.
          + rewrite Er2. intros Q. apply (v_erased s I) in Q. apply (v_fresh s I) in Q. lia.
          + intros ->. apply (v_fresh s I) in KF. lia.
        - apply HR. intros k j Hj Hk. apply (LH k j); auto.
          + rewrite Er2. intros Q. apply (v_erased s I) in Q. apply (v_fresh s I) in Q. apply C2 in Hk. lia.
          + intros ->. apply (v_fresh s I) in KF. apply C2 in Hk. lia. }
      intros k j Hj He. destruct (Nat.eq_dec k (c_op f)) as [->|Hf]; [|apply (LH k j); auto].
      assert (j = i); [|subst j; exact FI].
      apply (in_op_of _ _ _ N) in Hj. rewrite O2 in Hj. unfold s1 in Hj. cbn in Hj. rewrite <- app_assoc in Hj.
      rewrite (op_of_app _ _ _ _ Hi) in Hj. congruence.
  - unfold cur_ok. cbn [s_ops s_cur s_new s_erased s_next]. split; [auto|]. split.
    + intros k Hk. rewrite O2, map_app, M2. apply in_app_iff. auto.
    + intros k Hk. pose proof (C2 k Hk) as Q. split; [lia|]. split.
      * rewrite Nw2. rewrite in_app_iff. intros [Q'|Q'].
        -- apply (proj1 (proj2 (v_new s I))) in Q'. apply (v_fresh s I) in Q'. lia.
        -- apply in_seq in Q'. lia.
      * rewrite Er2. intros [Q'|Q'].
        -- subst. apply (v_fresh s I) in KF. lia.
        -- apply (v_erased s I) in Q'. apply (v_fresh s I) in Q'. lia.
Qed.

(** Operations [l] searched for cycles are live ones of the component. *)
Definition searched (l : ops) (s : state) : Prop :=
  NoDup (map fst l) /\
  forall k, In k (map fst l) -> op_of l k = op_of (s_ops s) k /\ ~ In k (s_erased s).

Lemma reading_agree : forall l l' c, (forall k, In k (map c_op c) -> op_of l k = op_of l' k) ->
  reading_cycle explicit l c -> reading_cycle explicit l' c.
Proof.
  intros l l' c H R. induction R as [c i O W|c rest i O W NE A C WR R IH].
  - eapply RC_last; eauto. rewrite <- H; cbn; auto.
  - eapply RC_cons; eauto.
    + rewrite <- H; cbn; auto.
    + intros ws w x Hs. eapply WR. rewrite (solve_agree explicit l l'); auto.
      intros k Hk. apply H. cbn. auto.
    + apply IH. intros k Hk. apply H. cbn. auto.
Qed.

Lemma clear_inv : forall s, inv s -> inv (mkState (s_ops s) [] (s_new s) (s_erased s) (s_next s)).
Proof. intros s [N F O Nw Er L A]. constructor; auto. Qed.

Lemma searched_add : forall l s ns, inv s -> searched l s -> incl (map fst l) (map fst (s_ops s)) ->
  searched l (add_ops s ns).
Proof.
  intros l s ns I [N S] Inc. split; auto. intros k Hk. destruct (S k Hk) as [A B]. split; auto.
  rewrite A. cbn. apply Inc in Hk. apply in_map_iff in Hk. destruct Hk as ([k' i] & <- & Hk).
  apply (in_op_of _ _ _ (v_nodup s I)) in Hk. cbn. rewrite (op_of_app _ _ _ _ Hk). auto.
Qed.

Lemma try_cycles_inv : forall l todo before s s', inv s -> searched l s ->
  incl (map fst l) (map fst (s_ops s)) -> incl todo (cycles_of l) -> (s_cur s = [] \/ todo <> []) ->
  try_cycles explicit before todo s = Ok s' -> inv s' /\ cur_ok s'.
Proof.
  intros l todo. induction todo as [|c todo IH]; intros before s s' I S Inc HC HN H.
  - cbn in H. injection H as <-. split; auto. destruct HN as [E|]; [|congruence].
    unfold cur_ok. rewrite E. split; [constructor|]. split; intros k [].
  - cbn [try_cycles] in H. set (s0 := mkState (s_ops s) [] (s_new s) (s_erased s) (s_next s)) in *.
    assert (I0 : inv s0) by (apply clear_inv; auto).
    assert (S0 : searched l s0) by exact S.
    assert (HC' : incl todo (cycles_of l)) by (intros x Hx; apply HC; cbn; auto).
    destruct (contained before c).
    + eapply IH; eauto.
    + apply bind_ok in H. destruct H as ([b ns] & SV & H). cbn [fst snd] in H.
      destruct (GC l c (proj1 S) (HC c (or_introl eq_refl))) as (ND & CI & RC & SC).
      assert (AG : forall k, In k (map c_op c) -> op_of l k = op_of (s_ops s0) k).
      { intros k Hk. apply (proj2 S k). apply CI. auto. }
      assert (RC' : reading_cycle explicit (s_ops s0) c) by (eapply reading_agree; eauto).
      destruct b.
      * assert (NE : forall k, In k (map c_op c) -> ~ In k (s_erased s0)).
        { intros k Hk. apply (proj2 S k). apply CI. auto. }
        assert (SC' : forall f i, hd_error c = Some f -> op_of (s_ops s0) (c_op f) = Some i ->
          t_rank (i_tmpl i) = O -> ns <> []).
        { intros f i Hf Hi R. apply (SC f i ns); auto.
          - rewrite AG; auto. destruct c; [discriminate|]. injection Hf as <-. cbn. auto.
          - rewrite (solve_agree explicit l (s_ops s0)); auto. }
        exact (replace_first_inv s0 c ns s' I0 eq_refl ND RC' NE SV SC' H).
      * eapply (IH (before ++ [c])); [| | | | |exact H].
        -- apply add_ops_inv; auto. intros st Ha. apply Forall_forall. intros n Hn.
           assert (FI : exists f i, hd_error c = Some f /\ op_of (s_ops s0) (c_op f) = Some i).
           { inversion RC'; subst; cbn; eauto. }
           destruct FI as (f & i & Hf & Hi). eapply (stands_for_holds M st i).
           ++ eapply (solve_stands M explicit EX st (s_ops s0) c RC' false ns SV); eauto.
              intros c' j _ Hj. eapply Ha. apply op_of_in. eauto.
           ++ eapply Ha. apply op_of_in. eauto.
        -- apply searched_add; auto.
        -- cbn. rewrite map_app. intros k Hk. apply in_app_iff. left. auto.
        -- auto.
        -- left. reflexivity.
Qed.

Lemma next_searched : forall s, inv s -> cur_ok s ->
  let s2 := next_current (seq 0 (length eqs)) s in
  inv s2 /\ searched (ops_of (s_ops s2) (s_cur s2)) s2 /\
  incl (map fst (ops_of (s_ops s2) (s_cur s2))) (map fst (s_ops s2)).
Proof.
  intros s I (C1 & C2 & C3) s2.
  assert (I2 : inv s2) by (destruct I as [N F O Nw Er L A]; constructor; auto).
  assert (OI : incl (seq 0 (length eqs)) (map fst (s_ops s))).
  { destruct (v_orig s I) as [more ->]. rewrite map_app, number_fst. intros k Hk. apply in_app_iff. auto. }
  destruct (v_new s I) as (N1 & N2 & N3).
  assert (CI : incl (s_cur s2) (map fst (s_ops s2))).
  { intros k Hk. unfold s2, next_current in *. cbn in *. rewrite !in_app_iff, !filter_In in Hk.
    destruct Hk as [Hk|[[Hk _]|[Hk _]]]; auto. }
  assert (CN : NoDup (s_cur s2)).
  { unfold s2, next_current. cbn. apply nodup_app; auto.
    - apply nodup_app; [apply NoDup_filter, seq_NoDup|apply NoDup_filter; auto|].
      intros k Hk Hk'. apply filter_In in Hk, Hk'. destruct Hk as [Hk _], Hk' as [Hk' _].
      apply in_seq in Hk. apply N3 in Hk'. lia.
    - intros k Hk Hk'. destruct (C3 k Hk) as (L & NN & _). rewrite in_app_iff, !filter_In in Hk'.
      destruct Hk' as [[Hk' _]|[Hk' _]]; [apply in_seq in Hk'; lia|contradiction]. }
  assert (CE : forall k, In k (s_cur s2) -> ~ In k (s_erased s2)).
  { intros k Hk. unfold s2, next_current in *. cbn in *. rewrite !in_app_iff, !filter_In in Hk.
    destruct Hk as [Hk|[[_ Hk]|[_ Hk]]].
    - apply C3. auto.
    - apply mem_false. destruct (mem k (s_erased s)); [discriminate|auto].
    - apply mem_false. destruct (mem k (s_erased s)); [discriminate|auto]. }
  split; auto. rewrite (ops_of_fst _ _ CI (v_nodup s2 I2)). split; auto.
  split; [rewrite (ops_of_fst _ _ CI (v_nodup s2 I2)); auto|].
  intros k Hk. rewrite (ops_of_fst _ _ CI (v_nodup s2 I2)) in Hk. split; auto.
  apply ops_of_op; auto.
Qed.

Lemma rounds_inv : forall n l cycles s s' b, inv s -> searched l s ->
  incl (map fst l) (map fst (s_ops s)) -> incl cycles (cycles_of l) ->
  rounds explicit cycles_of n (seq 0 (length eqs)) cycles s = Ok (s', b) -> inv s'.
Proof.
  induction n as [|n IH]; intros l cycles s s' b I S Inc HC H.
  - destruct cycles; cbn in H; injection H as <- <-; auto.
  - destruct cycles as [|c cycles]; [cbn in H; injection H as <- <-; auto|].
    cbn [rounds] in H. apply bind_ok in H. destruct H as (s1 & H1 & H).
    destruct (try_cycles_inv l (c :: cycles) [] s s1 I S Inc HC) as [I1 C1]; auto.
    { right. congruence. }
    destruct (next_searched s1 I1 C1) as (I2 & S2 & Inc2). cbv zeta in *.
    eapply IH; [exact I2|exact S2|exact Inc2| |exact H]. apply incl_refl.
Qed.

Theorem component_solutions : forall maxE maxI r,
  solve_component explicit cycles_of maxE maxI eqs = Ok r -> same_solutions M eqs r.
Proof.
  intros maxE maxI r H. unfold solve_component in H.
  destruct (maxE <? length eqs)%nat. { injection H as <-. intros st. tauto. }
  apply bind_ok in H. destruct H as ([s b] & HR & H).
  set (s0 := mkState (number 0 eqs) (seq 0 (length eqs)) [] [] (length eqs)) in *.
  assert (SN : forall st, solution M st eqs <-> all_hold st (number 0 eqs)).
  { intros st. unfold solution. rewrite Forall_forall. split.
    - intros Hs k i Hi. apply number_in in Hi. apply Hs, Hi.
    - intros Ha i Hi. destruct (number_out eqs 0 i Hi) as [k Hk]. eapply Ha; eauto. }
  assert (I0 : inv s0).
  { constructor; cbn.
    - rewrite number_fst. apply seq_NoDup.
    - intros k Hk. rewrite number_fst in Hk. apply in_seq in Hk. lia.
    - exists []. rewrite app_nil_r. auto.
    - split; [constructor|]. split; intros k [].
    - intros k [].
    - intros st Hl k i Hi. apply (Hl k i); auto.
    - intros st Hs. apply SN. auto. }
  assert (IS : inv s).
  { eapply (rounds_inv maxI (number 0 eqs)); [exact I0| | | |exact HR].
    - split; [cbn; rewrite number_fst; apply seq_NoDup|]. intros k Hk. cbn. auto.
    - cbn. apply incl_refl.
    - apply incl_refl. }
  intros st. rewrite SN. split.
  - intros Ha. assert (AA : all_hold st (s_ops s)) by (apply (v_all s IS), SN; auto).
    assert (K : forall h, Forall (holds M st) (map snd (filter h (s_ops s)))).
    { intros h. apply Forall_forall. intros i Hi. apply in_map_iff in Hi.
      destruct Hi as ([k j] & <- & Hj). apply filter_In in Hj. eapply AA, Hj. }
    destruct b; injection H as <-; apply K.
  - intros Hr. destruct b; injection H as <-.
    + assert (AA : all_hold st (s_ops s)).
      { apply (v_live s IS). intros k i Hi He. unfold solution in Hr. rewrite Forall_forall in Hr. apply Hr.
        apply in_map_iff. exists (k, i). split; auto. apply filter_In. split; auto. cbn.
        apply mem_false in He. rewrite He. auto. }
      destruct (v_orig s IS) as [more Q]. intros k i Hi. apply (AA k i). rewrite Q. apply in_app_iff. auto.
    + destruct (v_orig s IS) as [more Q]. intros k i Hi. unfold solution in Hr. rewrite Forall_forall in Hr. apply Hr.
      apply in_map_iff. exists (k, i). split; auto. apply filter_In. split.
      * rewrite Q. apply in_app_iff. auto.
      * cbn. apply negb_true_iff, mem_false. intros Hk.
        apply (proj2 (proj2 (v_new s IS))) in Hk. apply number_in in Hi. lia.
Qed.
End Component.
