(** * Proofs about calls and default values *)
From Coq Require Import ZArith List Bool Arith Lia Permutation Relation_Operators.
From Verif Require Import Result ListTac AccessModel WritesMapModel SchedModel SchedSpec PostOrderProofs CallModel CallSpec.
Import ListNotations.
Local Open Scope nat_scope.

(** ** Lists and maps *)

Lemma insert_by_perm : forall addr x l, Permutation (insert_by addr x l) (x :: l).
Proof.
  intros addr x l. induction l as [|y l IH]; cbn; auto.
  destruct (addr x <=? addr y); auto.
  rewrite IH. apply perm_swap.
Qed.
Lemma sort_by_perm : forall addr l, Permutation (sort_by addr l) l.
Proof.
  intros addr l. induction l as [|x l IH]; cbn; auto.
  rewrite insert_by_perm. constructor. exact IH.
Qed.

Lemma place_some : forall l x, In x l -> exists i, place x l = Some i.
Proof.
  induction l as [|y l IH]; intros x H; [destruct H|]. cbn.
  destruct (Nat.eqb_spec x y) as [|n]; [eauto|].
  destruct H as [H|H]; [congruence|]. destruct (IH x H) as [i K]. rewrite K. cbn. eauto.
Qed.
Lemma place_nth : forall l x i, place x l = Some i -> nth_error l i = Some x.
Proof.
  induction l as [|y l IH]; intros x i H; cbn in H; [discriminate|].
  destruct (Nat.eqb_spec x y) as [e|n].
  - injection H as <-. subst. reflexivity.
  - destruct (place x l) as [j|] eqn:E; cbn in H; [|discriminate]. injection H as <-. cbn. apply IH; auto.
Qed.

Lemma map_res_ok : forall A B (f : A -> res B) l, (forall x, In x l -> exists y, f x = Ok y) ->
  exists r, map_res f l = Ok r.
Proof.
  intros A B f l. induction l as [|x l IH]; intros H; cbn; [eauto|].
  destruct (H x (or_introl eq_refl)) as [y Hy]. rewrite Hy. cbn.
  destruct IH as [r Hr]; [intros z Hz; apply H; right; auto|]. rewrite Hr. cbn. eauto.
Qed.
Lemma map_res_nth : forall A B (f : A -> res B) l r, map_res f l = Ok r ->
  length r = length l /\ forall i x, nth_error l i = Some x -> exists y, nth_error r i = Some y /\ f x = Ok y.
Proof.
  intros A B f l. induction l as [|x l IH]; intros r H; cbn in H.
  - injection H as <-. split; auto. intros [|i] x K; discriminate.
  - apply bind_ok in H as (y & Hy & H). apply bind_ok in H as (r' & Hr & H). injection H as <-.
    destruct (IH r' Hr) as [L K]. split; [cbn; lia|].
    intros [|i] z Hz; cbn in Hz.
    + injection Hz as ->. exists y. split; auto.
    + destruct (K i z Hz) as (w & W1 & W2). exists w. split; auto.
Qed.

Lemma map_find_update_same : forall A (x : nat) (v : A) m, map_find x (map_update x v (fun _ => v) m) = Some v.
Proof.
  intros A x v m. induction m as [|[y a] m IH]; cbn; [rewrite Nat.eqb_refl; auto|].
  destruct (Nat.eqb_spec x y) as [e|n]; cbn.
  - subst. rewrite Nat.eqb_refl. auto.
  - apply Nat.eqb_neq in n. rewrite n. exact IH.
Qed.
Lemma map_find_update_other : forall A (x y : nat) (v d : A) g m, x <> y ->
  map_find y (map_update x d g m) = map_find y m.
Proof.
  intros A x y v d g m N. induction m as [|[z a] m IH]; cbn.
  - destruct (Nat.eqb_spec y x); [congruence|auto].
  - destruct (Nat.eqb_spec x z) as [e|n]; cbn; destruct (Nat.eqb_spec y z); auto; congruence.
Qed.
Lemma map_find_in : forall A (x : nat) (a : A) m, map_find x m = Some a -> In (x, a) m.
Proof.
  intros A x a m. induction m as [|[y b] m IH]; cbn; [discriminate|].
  destruct (Nat.eqb_spec x y) as [e|n]; intros H.
  - injection H as ->. subst. auto.
  - right. auto.
Qed.
Lemma map_find_nodup : forall A (x : nat) (a : A) m, NoDup (map fst m) -> In (x, a) m -> map_find x m = Some a.
Proof.
  intros A x a m. induction m as [|[y b] m IH]; cbn; intros N H; [destruct H|].
  inversion N as [|? ? N1 N2]; subst. destruct H as [H|H].
  - injection H as -> ->. rewrite Nat.eqb_refl. auto.
  - destruct (Nat.eqb_spec x y) as [e|n]; [|auto].
    subst. exfalso. apply N1. apply in_map_iff. exists (y, a). auto.
Qed.
Lemma map_find_none : forall A (x : nat) (m : list (nat * A)), map_find x m = None -> ~ In x (map fst m).
Proof.
  intros A x m. induction m as [|[y b] m IH]; cbn; intros H; auto.
  destruct (Nat.eqb_spec x y) as [e|n]; [discriminate|]. intros [K|K]; [congruence|]. exact (IH H K).
Qed.
Lemma map_find_combine : forall (l : list nat) A (m : list A) x a, NoDup l ->
  (map_find x (combine l m) = Some a <-> exists i, nth_error l i = Some x /\ nth_error m i = Some a).
Proof.
  induction l as [|y l IH]; intros A m x a N; cbn.
  - split; [discriminate|]. intros ([|i] & H & _); discriminate.
  - destruct m as [|b m].
    + split; [discriminate|]. intros ([|i] & _ & H); discriminate.
    + cbn. inversion N as [|? ? N1 N2]; subst. destruct (Nat.eqb_spec x y) as [e|n].
      * subst. split.
        -- intros H. injection H as ->. exists 0. auto.
        -- intros ([|i] & H & K); cbn in *; [congruence|]. exfalso. apply N1. apply (nth_error_In l i). auto.
      * rewrite IH by auto. split.
        -- intros (i & H & K). exists (S i). auto.
        -- intros ([|i] & H & K); cbn in *; [congruence|]. eauto.
Qed.
(** A map filled from a list with different keys. *)
Lemma fill_map : forall A (l : list (nat * A)) m x,  NoDup (map fst l) -> (forall k, In k (map fst l) -> map_find k m = None) ->
  map_find x (fold_left (fun m a => map_update (fst a) (snd a) (fun _ => snd a) m) l m) =
  match map_find x l with Some a => Some a | None => map_find x m end.
Proof.
  intros A l. induction l as [|[k a] l IH]; intros m x N F; cbn; auto.
  cbn in N. inversion N as [|? ? N1 N2]; subst. rewrite IH; auto.
  - destruct (Nat.eqb_spec x k) as [e|n].
    + subst. rewrite map_find_update_same.
      destruct (map_find k l) as [b|] eqn:E; auto.
      exfalso. apply N1. apply in_map_iff. exists (k, b). split; auto. apply map_find_in; auto.
    + rewrite map_find_update_other; auto.
  - intros k' K. destruct (Nat.eq_dec k k') as [->|n]; [contradiction|].
    rewrite map_find_update_other by auto. apply F. cbn. auto.
Qed.

Lemma all_different_nodup : forall l, all_different l = true <-> NoDup l.
Proof.
  induction l as [|x l IH]; cbn.
  - split; auto. constructor.
  - rewrite andb_true_iff, negb_true_iff, memb_out, IH. split.
    + intros [H K]. constructor; auto.
    + intros H. inversion H; auto.
Qed.
Lemma inputs_nodup : forall f, NoDup (map fst (f_vars f)) -> NoDup (inputs f).
Proof.
  intros f. unfold inputs. induction (f_vars f) as [|[x k] l IH]; cbn; intros N; [constructor|].
  inversion N as [|? ? N1 N2]; subst. destruct (is_input (x, k)); cbn; auto.
  constructor; auto. intros H. apply N1. apply in_map_iff in H as ([y k'] & E & H). cbn in E. subst.
  apply filter_In in H as [H _]. apply in_map_iff. exists (x, k'). auto.
Qed.
Lemma has_key_in : forall A (m : list (nat * A)) x, has_key x m = true <-> exists a, In (x, a) m.
Proof.
  intros A m x. unfold has_key. destruct (map_find x m) as [a|] eqn:E.
  - split; auto. intros _. exists a. apply map_find_in; auto.
  - split; [discriminate|]. intros [a H]. exfalso. apply (map_find_none _ _ _ E).
    apply in_map_iff. exists (x, a). auto.
Qed.
Lemma default_op_in : forall f x d, NoDup (map fst (f_defaults f)) -> (default_op f x = Some d <-> In (x, d) (f_defaults f)).
Proof.
  intros f x d N. unfold default_op. split.
  - intros H. apply map_find_in in H. apply in_rev; auto.
  - intros H. apply map_find_nodup.
    + rewrite map_rev. apply NoDup_rev. exact N.
    + apply in_rev. rewrite rev_involutive. exact H.
Qed.

(** ** The order of the variables *)

Lemma acyclic_reaches : forall (rank : nat -> nat) (R : nat -> nat -> Prop),
  (forall a b, R a b -> rank b < rank a) -> forall a b, reaches R a b -> rank b <= rank a.
Proof.
  intros rank R H a b K. induction K as [a b K|a|a b c _ IH1 _ IH2]; auto.
  - apply H in K. lia.
  - lia.
Qed.

Lemma precedes_map : forall A B (g : A -> B) l a b, precedes l a b -> precedes (map g l) (g a) (g b).
Proof.
  intros A B g l a b (l1 & l2 & l3 & ->). exists (map g l1), (map g l2), (map g l3).
  rewrite map_app. cbn. rewrite map_app. reflexivity.
Qed.
Lemma nth_seq_map : forall (l : list nat), map (fun i => nth i l 0) (seq 0 (length l)) = l.
Proof.
  induction l as [|x l IH]; cbn; auto. f_equal. rewrite <- seq_shift, map_map. exact IH.
Qed.

Lemma graph_order_ok : forall addr vars dops rank,
  (forall x d y, In x vars -> dops x = Some d -> In y (gets d) -> In y vars) ->
  (forall x d y, In x vars -> dops x = Some d -> In y (gets d) -> rank y < rank x) ->
  exists l, graph_order addr vars dops = Ok l /\ Permutation l vars /\
    forall x d y, In x vars -> dops x = Some d -> In y (gets d) -> precedes l y x.
Proof.
  intros addr vars dops rank Hin Hrank. unfold graph_order. cbv zeta.
  set (sorted := sort_by addr vars).
  assert (P : Permutation sorted vars) by apply sort_by_perm.
  assert (HS : forall x, In x sorted <-> In x vars).
  { intros x. split; apply Permutation_in; auto. apply Permutation_sym; auto. }
  assert (HC : forall x, In x sorted -> exists cs, children sorted dops x = Ok cs).
  { intros x Hx. unfold children. apply map_res_ok. intros y Hy.
    unfold dependencies in Hy. destruct (dops x) as [d|] eqn:E; [|destruct Hy].
    apply nodup_In in Hy. destruct (place_some sorted y) as [i K].
    - apply HS. eapply Hin; eauto. apply HS; auto.
    - rewrite K. cbn. eauto. }
  destruct (map_res_ok _ _ _ _ HC) as [adj Hadj]. rewrite Hadj. cbn [bind].
  destruct (map_res_nth _ _ _ _ _ Hadj) as [L Hnth].
  set (adjf := fun i => sort_by (fun k => k) (nth i adj [])).
  assert (HA : forall i j, In j (adjf i) <-> In j (nth i adj [])).
  { intros i j. unfold adjf. split; apply Permutation_in; [|apply Permutation_sym]; apply sort_by_perm. }
  assert (HE : forall i j, i < length sorted -> In j (adjf i) ->
     j < length sorted /\ rank (nth j sorted 0) < rank (nth i sorted 0)).
  { intros i j Li Hj. apply HA in Hj.
    destruct (nth_error sorted i) as [x|] eqn:Ex; [|apply nth_error_None in Ex; lia].
    destruct (Hnth i x Ex) as (cs & Hcs & Hch).
    rewrite (nth_error_nth adj i [] Hcs) in Hj.
    rewrite (nth_error_nth sorted i 0 Ex).
    unfold children in Hch. destruct (map_res_nth _ _ _ _ _ Hch) as [Lc Hc].
    apply In_nth_error in Hj as [k Hk].
    destruct (nth_error (dependencies dops x) k) as [y|] eqn:Ey.
    2:{ apply nth_error_None in Ey. assert (nth_error cs k <> None) by congruence. apply nth_error_Some in H. lia. }
    destruct (Hc k y Ey) as (j' & Hj' & Hp). rewrite Hk in Hj'. injection Hj' as <-.
    apply of_option_inv in Hp. apply place_nth in Hp.
    rewrite (nth_error_nth sorted j 0 Hp). split.
    - apply nth_error_Some. congruence.
    - apply nth_error_In in Ey. unfold dependencies in Ey. destruct (dops x) as [d|] eqn:Ed; [|destruct Ey].
      apply nodup_In in Ey. apply (Hrank x d y); auto. apply HS. apply (nth_error_In _ _ Ex). }
  destruct (post_order_ok (length sorted) adjf) as (r & Hr & Hperm & Hord).
  { intros i Li j Hj. apply in_seq. destruct (HE i j Li Hj). lia. }
  fold adjf. rewrite Hr. cbn [bind]. eexists. split; [reflexivity|]. split.
  - apply (perm_trans (l' := sorted)); [|exact P].
    apply (perm_trans (l' := map (fun i => nth i sorted 0) (seq 0 (length sorted)))).
    + apply Permutation_map. exact Hperm.
    + rewrite nth_seq_map. apply Permutation_refl.
  - intros x d y Hx Hd Hy.
    assert (Hx' : In x sorted) by (apply HS; auto).
    apply In_nth_error in Hx' as [i Hi].
    assert (Li : i < length sorted) by (apply nth_error_Some; congruence).
    destruct (Hnth i x Hi) as (cs & Hcs & Hch).
    assert (Hydep : In y (dependencies dops x)).
    { unfold dependencies. rewrite Hd. apply nodup_In. auto. }
    apply In_nth_error in Hydep as [k Hk].
    unfold children in Hch. destruct (map_res_nth _ _ _ _ _ Hch) as [Lc Hc].
    destruct (Hc k y Hk) as (j & Hj & Hp). apply of_option_inv in Hp. apply place_nth in Hp.
    assert (Hadjj : In j (adjf i)).
    { apply HA. rewrite (nth_error_nth adj i [] Hcs). apply (nth_error_In _ _ Hj). }
    destruct (Hord i j Li Hadjj) as [K|K].
    + apply (precedes_map _ _ (fun i => nth i sorted 0)) in K. cbv beta in K.
      rewrite (nth_error_nth sorted j 0 Hp), (nth_error_nth sorted i 0 Hi) in K. exact K.
    + exfalso. destruct (HE i j Li Hadjj) as [Lj Hlt].
      assert (G : rank (nth i sorted 0) <= rank (nth j sorted 0)).
      { clear - K HE Lj.
        assert (G : forall a b, reaches (fun a b => In b (adjf a)) a b -> a < length sorted ->
                    b < length sorted /\ rank (nth b sorted 0) <= rank (nth a sorted 0)).
        { intros a b H. induction H as [a b H|a|a b c _ IH1 _ IH2]; intros La.
          - destruct (HE a b La H). split; [auto|lia].
          - auto.
          - destruct (IH1 La) as [Lb R1]. destruct (IH2 Lb) as [Lc R2]. split; [auto|lia]. }
        apply (G j i K Lj). }
      lia.
Qed.

(** What comes before, when nothing is repeated. *)
Lemma precedes_done : forall (l1 : list nat) x l2 y, NoDup (l1 ++ x :: l2) -> precedes (l1 ++ x :: l2) y x -> In y l1.
Proof.
  intros l1 x l2 y N (k1 & k2 & k3 & E).
  assert (K : k1 ++ y :: k2 = l1).
  { rewrite app_comm_cons, app_assoc in E. rewrite E in N.
    revert l1 E. generalize (k1 ++ y :: k2) N. clear.
    intros k N l1 E. revert l1 E. induction k as [|a k IH]; intros l1 E.
    - destruct l1 as [|b l1]; auto. cbn in E. injection E as -> E.
      cbn in N. inversion N as [|? ? N1 _]; subst. exfalso. apply N1. apply in_or_app. right. left. auto.
    - cbn in N. inversion N as [|? ? N1 N2]; subst. destruct l1 as [|b l1]; cbn in E.
      + injection E as -> E. exfalso. apply N1. apply in_or_app. right. left. auto.
      + injection E as -> E. f_equal. apply IH; auto. }
  rewrite <- K. apply in_or_app. right. left. auto.
Qed.

(** ** Filling the arguments *)

Lemma nth_error_skipn : forall A (l : list A) n i, nth_error (skipn n l) i = nth_error l (n + i).
Proof.
  intros A l. induction l as [|x l IH]; intros [|n] i; cbn; auto. destruct i; auto.
Qed.

Lemma clone_default_ok : forall I env rho vars d,
  (forall y, In y (gets d) -> exists a, map_find y vars = Some a /\ ceval I env a = rho y) ->
  exists a, clone_default vars d = Ok a /\ ceval I env a = ceval I rho d.
Proof.
  intros I env rho vars d. induction d as [z|x|o a IHa b IHb]; intros H; cbn.
  - exists (CNum z). auto.
  - destruct (H x) as (a & Ha & E); [cbn; auto|]. rewrite Ha. cbn. eauto.
  - cbn in H. destruct IHa as (a' & Ea & Va); [intros y Hy; apply H; apply in_or_app; auto|].
    destruct IHb as (b' & Eb & Vb); [intros y Hy; apply H; apply in_or_app; auto|].
    rewrite Ea. cbn. rewrite Eb. cbn. eexists. split; [reflexivity|]. cbn. rewrite Va, Vb. auto.
Qed.

Section FILL.
Variable I : nat -> Z -> Z -> Z.
Variable f : cfun.
Variable c : ccall.
Variable env : nat -> Z.
Variable missing : list (nat * cexp) -> nat -> bool.
Variable order : list nat.
Hypothesis Hwd : well_declared f.
Hypothesis Hnodup : NoDup order.
Hypothesis Horder : forall x, In x order <-> In x (inputs f).
Hypothesis Hbefore : forall x d y, In x (inputs f) -> In (x, d) (f_defaults f) -> In y (gets d) -> precedes order y x.
Hypothesis Hlegal : forall x, In x (inputs f) -> (exists e, given f c x e) \/ (exists d, In (x, d) (f_defaults f)).

(** The values recorded are right, those of the given inputs and of [done] are
    all there, and nothing else is. *)
Definition filled (done : list nat) (vars : list (nat * cexp)) : Prop :=
  (forall x, In x done \/ (exists e, given f c x e) -> exists a, map_find x vars = Some a /\ input_value I f c env x (ceval I env a)) /\
  (forall x, ~ In x done -> (forall e, ~ given f c x e) -> map_find x vars = None).

Hypothesis Hmissing : forall done vars x, filled done vars -> In x (inputs f) -> ~ In x done ->
  (missing vars x = true <-> forall e, ~ given f c x e).

Lemma given_dec : forall x, (exists e, given f c x e) \/ (forall e, ~ given f c x e).
Proof.
  intros x. unfold given.
  set (keys := match c_names c with Some names => names | None => inputs f end).
  assert (E : forall i, (match c_names c with Some names => nth_error names i = Some x | None => nth_error (inputs f) i = Some x end)
               <-> nth_error keys i = Some x) by (intros i; unfold keys; destruct (c_names c); tauto).
  assert (D : (exists i e, nth_error (c_args c) i = Some e /\ nth_error keys i = Some x) \/
              ~ (exists i e, nth_error (c_args c) i = Some e /\ nth_error keys i = Some x)).
  { generalize keys. clear. induction (c_args c) as [|a l IH]; intros keys.
    - right. intros ([|i] & e & H & _); discriminate.
    - destruct keys as [|k keys].
      + right. intros ([|i] & e & _ & H); discriminate.
      + destruct (Nat.eq_dec k x) as [->|n].
        * left. exists 0, a. auto.
        * destruct (IH keys) as [(i & e & H1 & H2)|H].
          -- left. exists (S i), e. auto.
          -- right. intros ([|i] & e & H1 & H2); cbn in *; [congruence|]. apply H. eauto. }
  destruct D as [(i & e & H1 & H2)|D].
  - left. exists e, i. rewrite E. auto.
  - right. intros e (i & H1 & H2). rewrite E in H2. apply D. eauto.
Qed.

Lemma fill_one_ok : forall done x todo vars, order = done ++ x :: todo -> filled done vars ->
  exists vars', fill_one f missing vars x = Ok vars' /\ filled (done ++ [x]) vars'.
Proof.
  intros done x todo vars E F.
  assert (Hx : In x (inputs f)). { apply Horder. rewrite E. apply in_or_app. right. left. auto. }
  assert (Nx : ~ In x done).
  { rewrite E in Hnodup. apply NoDup_remove_2 in Hnodup. intros K. apply Hnodup. apply in_or_app. auto. }
  destruct Hwd as (W1 & W2 & W3). unfold fill_one.
  destruct (missing vars x) eqn:M.
  - assert (G : forall e, ~ given f c x e) by (eapply Hmissing; eauto).
    destruct (Hlegal x Hx) as [[e He]|[d Hd]]; [exfalso; eapply G; eauto|].
    rewrite (proj2 (default_op_in f x d W2) Hd). cbn [of_option bind].
    assert (Hdeps : forall y, In y (gets d) -> exists a, map_find y vars = Some a /\ input_value I f c env y (ceval I env a)).
    { intros y Hy. apply (proj1 F). left. pose proof (Hbefore x d y Hx Hd Hy) as K. rewrite E in K.
      apply (precedes_done done x todo); auto. rewrite <- E. auto. }
    set (rho := fun y => match map_find y vars with Some a => ceval I env a | None => 0%Z end).
    destruct (clone_default_ok I env rho vars d) as (a & Ea & Va).
    { intros y Hy. destruct (Hdeps y Hy) as (b & Hb & _). exists b. split; auto. unfold rho. rewrite Hb. auto. }
    rewrite Ea. cbn [bind]. eexists. split; [reflexivity|]. split.
    + intros y Hy. destruct (Nat.eq_dec x y) as [->|n].
      * exists a. rewrite map_find_update_same. split; auto. rewrite Va. apply value_default; auto.
        intros z Hz. destruct (Hdeps z Hz) as (b & Hb & Vb). unfold rho. rewrite Hb. exact Vb.
      * rewrite map_find_update_other by auto. apply (proj1 F).
        destruct Hy as [Hy|Hy]; auto. apply in_app_or in Hy as [Hy|[Hy|[]]]; auto. congruence.
    + intros y Hy G'. assert (n : x <> y). { intros ->. apply Hy. apply in_or_app. right. left. auto. }
      rewrite map_find_update_other by auto. apply (proj2 F); auto.
      intros K. apply Hy. apply in_or_app. auto.
  - eexists. split; [reflexivity|].
    assert (G : exists e, given f c x e).
    { destruct (given_dec x) as [G|G]; auto. exfalso.
      apply (Hmissing done vars x F Hx Nx) in G. congruence. }
    split.
    + intros y Hy. apply (proj1 F). destruct Hy as [Hy|Hy]; auto.
      apply in_app_or in Hy as [Hy|[Hy|[]]]; auto. subst. auto.
    + intros y Hy. apply (proj2 F). intros K. apply Hy. apply in_or_app. auto.
Qed.

Lemma fill_all_ok : forall todo done vars, order = done ++ todo -> filled done vars ->
  exists vars', fold_res (fill_one f missing) todo vars = Ok vars' /\ filled order vars'.
Proof.
  induction todo as [|x todo IH]; intros done vars E F; cbn.
  - exists vars. split; auto. rewrite E, app_nil_r. auto.
  - destruct (fill_one_ok done x todo vars E F) as (vars1 & E1 & F1). rewrite E1. cbn [bind].
    apply (IH (done ++ [x])); auto. rewrite E, <- app_assoc. reflexivity.
Qed.
End FILL.

Lemma fold_res_nil : forall A B (f : B -> A -> res B) b, fold_res f [] b = Ok b.
Proof. reflexivity. Qed.

Lemma given_keys : forall f c x e, well_declared f -> legal_call f c ->
  (given f c x e <-> map_find x (combine (match c_names c with Some names => names | None => inputs f end) (c_args c)) = Some e).
Proof.
  intros f c x e (W1 & _) [L _]. unfold given. rewrite map_find_combine.
  - destruct (c_names c); split; intros (i & A & B); exists i; auto.
  - destruct (c_names c) as [names|]; [tauto|]. apply inputs_nodup; auto.
Qed.

Lemma combine_keys_nodup : forall A (l : list nat) (m : list A), NoDup l -> NoDup (map fst (combine l m)).
Proof.
  induction l as [|x l IH]; intros [|a m] N; cbn; try constructor.
  - inversion N as [|? ? N1 N2]; subst. intros K. apply N1.
    apply in_map_iff in K as ([y b] & E & K). cbn in E. subst. apply in_combine_l in K. auto.
  - inversion N; auto.
Qed.

Lemma fill_args_ok : forall I addr f c env, well_declared f -> acyclic (f_defaults f) -> legal_call f c ->
  exists args, fill_args addr f c = Ok args /\ length args = length (inputs f) /\
    forall i x, nth_error (inputs f) i = Some x -> exists a, nth_error args i = Some a /\ input_value I f c env x (ceval I env a).
Proof.
  intros I addr f c env Hwd [rank Hr] Hlegal. pose proof Hwd as (W1 & W2 & W3).
  assert (NI := inputs_nodup f W1).
  destruct (graph_order_ok addr (inputs f) (default_op f) rank) as (order & Eo & Po & Bo).
  { intros x d y Hx Hd Hy. apply default_op_in in Hd; auto. eapply W3; eauto. }
  { intros x d y Hx Hd Hy. apply default_op_in in Hd; auto. eapply Hr; eauto. }
  unfold fill_args. rewrite Eo. cbn [bind].
  assert (Ho : forall x, In x order <-> In x (inputs f)).
  { intros x. split; apply Permutation_in; auto. apply Permutation_sym; auto. }
  assert (No : NoDup order). { apply (Permutation_NoDup (l := inputs f)); auto. apply Permutation_sym; auto. }
  assert (Hb : forall x d y, In x (inputs f) -> In (x, d) (f_defaults f) -> In y (gets d) -> precedes order y x).
  { intros x d y Hx Hd Hy. apply (Bo x d y); auto. apply default_op_in; auto. }
  pose proof Hlegal as [Hl1 Hl2].
  set (keys := match c_names c with Some names => names | None => inputs f end).
  assert (Nk : NoDup keys). { unfold keys. destruct (c_names c); tauto. }
  set (init := fold_left (fun m a => map_update (fst a) (snd a) (fun _ => snd a) m) (combine keys (c_args c)) []).
  assert (Hinit : forall x, map_find x init = map_find x (combine keys (c_args c))).
  { intros x. unfold init. rewrite fill_map; auto.
    - destruct (map_find x (combine keys (c_args c))); auto.
    - apply combine_keys_nodup; auto. }
  assert (Hgiven : forall x e, given f c x e <-> map_find x (combine keys (c_args c)) = Some e).
  { intros x e. apply given_keys; auto. }
  assert (F0 : filled I f c env [] init).
  { split.
    - intros x [[]|[e He]]. exists e. rewrite Hinit. split; [apply Hgiven; auto|]. apply value_given; auto.
    - intros x _ G. rewrite Hinit. destruct (map_find x (combine keys (c_args c))) as [e|] eqn:E; auto.
      exfalso. apply (G e). apply Hgiven; auto. }
  assert (Main : exists vars, match c_names c with
      | Some names => fold_res (fill_one f (fun vars x => negb (has_key x vars))) order
         (fold_left (fun m a => map_update (fst a) (snd a) (fun _ => snd a) m) (combine names (c_args c)) [])
      | None => fold_res (fill_one f (fun _ x => existsb (Nat.eqb x) (skipn (length (c_args c)) (inputs f)))) order
         (fold_left (fun m a => map_update (fst a) (snd a) (fun _ => snd a) m) (combine (inputs f) (c_args c)) [])
      end = Ok vars /\ filled I f c env order vars).
  { unfold keys in *. destruct (c_names c) as [names|] eqn:En.
    - apply (fill_all_ok I f c env (fun vars x => negb (has_key x vars)) order Hwd No Ho Hb Hl2) with (done := []); auto.
      intros done vars x F Hx Nx. unfold has_key. destruct (map_find x vars) as [a|] eqn:E; cbn.
      + split; [discriminate|]. intros G. exfalso. rewrite (proj2 F x Nx G) in E. discriminate.
      + split; auto. intros _ e He. destruct (proj1 F x) as (a & Ha & _); [right; eauto|]. congruence.
    - apply (fill_all_ok I f c env _ order Hwd No Ho Hb Hl2) with (done := []); auto.
      intros done vars x F Hx Nx. rewrite memb_in. split.
      + intros K e (i & H1 & H2). rewrite En in H2.
        apply In_nth_error in K as [j Hj]. rewrite nth_error_skipn in Hj.
        assert (Li : i < length (c_args c)) by (apply nth_error_Some; congruence).
        assert (length (c_args c) + j = i); [|lia].
        rewrite NoDup_nth_error in NI. apply NI; [apply nth_error_Some; congruence|congruence].
      + intros G. apply In_nth_error in Hx as [i Hi].
        destruct (le_lt_dec (length (c_args c)) i) as [Li|Li].
        * apply (nth_error_In _ (i - length (c_args c))). rewrite nth_error_skipn.
          replace (length (c_args c) + (i - length (c_args c))) with i by lia. auto.
        * exfalso. destruct (nth_error (c_args c) i) as [e|] eqn:E; [|apply nth_error_None in E; lia].
          apply (G e). exists i. rewrite En. auto. }
  destruct Main as (vars & Ev & Fv). rewrite Ev. cbn [bind].
  destruct (map_res_ok _ _ (fun x => of_option (map_find x vars)) (inputs f)) as [args Ea].
  { intros x Hx. destruct (proj1 Fv x) as (a & Ha & _); [left; apply Ho; auto|]. rewrite Ha. cbn. eauto. }
  rewrite Ea. exists args. split; auto.
  destruct (map_res_nth _ _ _ _ _ Ea) as [La Hn]. split; auto.
  intros i x Hi. destruct (Hn i x Hi) as (a & Ha & Hf). exists a. split; auto.
  apply of_option_inv in Hf. destruct (proj1 Fv x) as (b & Hb' & Vb).
  - left. apply Ho. apply (nth_error_In _ _ Hi).
  - rewrite Hf in Hb'. injection Hb' as <-. exact Vb.
Qed.

Lemma ceval_ext : forall I s s' e, (forall y, In y (gets e) -> s y = s' y) -> ceval I s e = ceval I s' e.
Proof.
  intros I s s' e. induction e as [z|x|o a IHa b IHb]; cbn; intros H; auto.
  rewrite IHa, IHb; auto; intros y Hy; apply H; apply in_or_app; auto.
Qed.

Lemma value_unique : forall I f c env, well_declared f -> acyclic (f_defaults f) -> legal_call f c ->
  forall x v, input_value I f c env x v -> forall w, input_value I f c env x w -> v = w.
Proof.
  intros I f c env Hwd Hac Hlegal.
  assert (U : forall x e e', given f c x e -> given f c x e' -> e = e').
  { intros x e e' H H'. rewrite given_keys in H, H' by auto. congruence. }
  intros x v H. induction H as [x e G|x d rho N D _ IH]; intros w K.
  - inversion K as [x' e' G'|x' d' rho' N' D' V']; subst.
    + rewrite (U _ _ _ G G'). auto.
    + exfalso. eapply N'; eauto.
  - inversion K as [x' e' G'|x' d' rho' N' D' V']; subst.
    + exfalso. eapply N; eauto.
    + destruct Hwd as (_ & W2 & _).
      assert (d = d').
      { apply default_op_in in D; auto. apply default_op_in in D'; auto. congruence. }
      subst d'. apply ceval_ext. intros y Hy. apply IH; auto.
Qed.

(** ** The check of calls *)

Lemma verify_legal : forall f c, well_declared f -> (verify_call f c = true <-> legal_call f c).
Proof.
  intros f c Hwd. pose proof Hwd as (W1 & _). assert (NI := inputs_nodup f W1).
  unfold verify_call, legal_call, given. destruct (c_names c) as [names|].
  - rewrite !andb_true_iff, !forallb_forall, Nat.eqb_eq, all_different_nodup. split.
    + intros [[[H1 H2] H3] H4]. split.
      * repeat split; auto. intros x Hx. apply memb_in. auto.
      * intros x Hx. specialize (H4 x Hx). apply orb_true_iff in H4 as [H4|H4].
        -- right. apply has_key_in in H4. auto.
        -- left. apply memb_in in H4. apply In_nth_error in H4 as [i Hi].
           destruct (nth_error (c_args c) i) as [e|] eqn:E; [eauto|].
           exfalso. apply nth_error_None in E. assert (nth_error names i <> None) by congruence.
           apply nth_error_Some in H. lia.
    + intros [(H1 & H2 & H3) H4]. repeat split; auto.
      * intros x Hx. apply memb_in. auto.
      * intros x Hx. apply orb_true_iff. destruct (H4 x Hx) as [(e & i & _ & Hi)|H].
        -- right. apply memb_in. apply (nth_error_In _ _ Hi).
        -- left. apply has_key_in. auto.
  - rewrite andb_true_iff, forallb_forall, Nat.leb_le. split.
    + intros [H1 H2]. split; auto. intros x Hx. apply In_nth_error in Hx as [i Hi].
      destruct (nth_error (c_args c) i) as [e|] eqn:E; [left; exists e, i; auto|].
      right. apply has_key_in. apply H2. apply nth_error_None in E.
      apply (nth_error_In _ (i - length (c_args c))). rewrite nth_error_skipn.
      replace (length (c_args c) + (i - length (c_args c))) with i by lia. auto.
    + intros [H1 H2]. split; auto. intros x Hx. apply In_nth_error in Hx as [j Hj]. rewrite nth_error_skipn in Hj.
      apply has_key_in. destruct (H2 x) as [(e & i & H3 & H4)|H]; auto.
      * apply (nth_error_In _ _ Hj).
      * exfalso. assert (Li : i < length (c_args c)) by (apply nth_error_Some; congruence).
        assert (length (c_args c) + j = i); [|lia].
        rewrite NoDup_nth_error in NI. apply NI; [apply nth_error_Some; congruence|congruence].
Qed.

(** ** Defaults of the other variables *)

Lemma run_sets_app : forall I a b s, run_sets I (a ++ b) s = run_sets I b (run_sets I a s).
Proof. intros I a. induction a as [|[x e] a IH]; intros b s; cbn; auto. Qed.

(** Running the assignments of variables without repetitions, each after those
    it reads. *)
Lemma run_order : forall I (dops : nat -> option cexp) order s, NoDup order ->
  (forall x d y, In x order -> dops x = Some d -> In y (gets d) -> In y order -> precedes order y x) ->
  (forall x d y, In x order -> dops x = Some d -> In y (gets d) -> y <> x) ->
  let s' := run_sets I (flat_map (fun x => match dops x with Some d => [(x, d)] | None => [] end) order) s in
  (forall x d, In x order -> dops x = Some d -> s' x = ceval I s' d) /\
  (forall x, ~ In x order \/ dops x = None -> s' x = s x).
Proof.
  intros I dops order. induction order as [|z order IH] using rev_ind; intros s N B A; cbn zeta.
  - split; [intros x d []|auto].
  - rewrite flat_map_app, run_sets_app.
    assert (N' : NoDup order) by (apply NoDup_remove_1 in N; rewrite app_nil_r in N; auto).
    assert (Nz : ~ In z order) by (apply NoDup_remove_2 in N; rewrite app_nil_r in N; auto).
    specialize (IH s N').
    assert (B' : forall x d y, In x order -> dops x = Some d -> In y (gets d) -> In y order -> precedes order y x).
    { intros x d y Hx Hd Hy Hyo.
      destruct (B x d y) as (k1 & k2 & k3 & E); auto; try (apply in_or_app; auto).
      destruct k3 as [|w k3] using rev_ind.
      - replace (k1 ++ y :: k2 ++ [x]) with ((k1 ++ y :: k2) ++ [x]) in E by (rewrite <- app_assoc; auto).
        apply app_inj_tail in E as [_ <-]. contradiction.
      - clear IHk3. replace (k1 ++ y :: k2 ++ x :: k3 ++ [w]) with ((k1 ++ y :: k2 ++ x :: k3) ++ [w]) in E.
        2:{ rewrite <- app_assoc. cbn. rewrite <- app_assoc. auto. }
        apply app_inj_tail in E as [E _]. exists k1, k2, k3. auto. }
    assert (A' : forall x d y, In x order -> dops x = Some d -> In y (gets d) -> y <> x).
    { intros x d y Hx. apply A. apply in_or_app. auto. }
    specialize (IH B' A'). cbn zeta in IH. destruct IH as [IH1 IH2].
    set (s1 := run_sets I (flat_map (fun x => match dops x with Some d => [(x, d)] | None => [] end) order) s) in *.
    cbn [flat_map]. rewrite app_nil_r. destruct (dops z) as [dz|] eqn:Ez; cbn [run_sets].
    2:{ split; auto.
        - intros x d Hx Hd. apply IH1; auto. apply in_app_or in Hx as [Hx|[Hx|[]]]; auto. subst. congruence.
        - intros x [Hx|Hx]; apply IH2; auto. left. intros K. apply Hx. apply in_or_app. auto. }
    assert (Same : forall x, x <> z -> assign s1 z (ceval I s1 dz) x = s1 x).
    { intros x n. unfold assign. apply Nat.eqb_neq in n. rewrite n. auto. }
    split.
    + intros x d Hx Hd. destruct (Nat.eq_dec x z) as [->|n].
      * rewrite Ez in Hd. injection Hd as <-. unfold assign at 1. rewrite Nat.eqb_refl.
        apply ceval_ext. intros y Hy. symmetry. apply Same. eapply A; eauto.
      * apply in_app_or in Hx as [Hx|[Hx|[]]]; [|congruence].
        rewrite Same by auto. rewrite (IH1 x d Hx Hd). apply ceval_ext. intros y Hy. symmetry. apply Same.
        intros ->. destruct (B x d z) as (k1 & k2 & k3 & E); auto; try (apply in_or_app; cbn; auto).
        apply in_split in Hx as (h1 & h2 & ->).
        pose proof N as N0. rewrite <- app_assoc in N0. cbn in N0.
        assert (In z h1); [|apply Nz; apply in_or_app; auto].
        apply (precedes_done h1 x (h2 ++ [z])); auto.
        exists k1, k2, k3. rewrite <- E. rewrite <- app_assoc. auto.
    + intros x Hx. destruct (Nat.eq_dec x z) as [->|n].
      * exfalso. destruct Hx as [Hx|Hx]; [|congruence]. apply Hx. apply in_or_app. cbn. auto.
      * rewrite Same by auto. apply IH2. destruct Hx as [Hx|Hx]; auto. left. intros K. apply Hx. apply in_or_app. auto.
Qed.

Lemma local_defaults_in : forall f x d, In (x, d) (local_defaults f) <-> In (x, d) (f_defaults f) /\ ~ In x (inputs f).
Proof.
  intros f x d. unfold local_defaults. rewrite filter_In. cbn [fst]. unfold is_input_var.
  rewrite negb_true_iff, memb_out. tauto.
Qed.

Lemma insert_defaults_ok : forall addr f, NoDup (map fst (f_defaults f)) -> acyclic (f_defaults f) ->
  (forall x d y, In (x, d) (f_defaults f) -> ~ In x (inputs f) -> In y (gets d) ->
     ~ In y (inputs f) /\ exists d', In (y, d') (f_defaults f)) ->
  exists algs, insert_defaults addr f = Ok algs /\
    forall I s, exists s', defaults_hold I f s s' /\ run_algorithms I algs s = run_algorithms I (f_algs f) s'.
Proof.
  intros addr f N [rank Hr] Hdep.
  set (ds := local_defaults f). set (dops := fun x => map_find x (rev ds)).
  assert (Nds : NoDup (map fst ds)).
  { unfold ds, local_defaults. clear - N. induction (f_defaults f) as [|[x d] l IH]; cbn; [constructor|].
    cbn in N. inversion N as [|? ? N1 N2]; subst. destruct (negb (is_input_var f x)); cbn; auto.
    constructor; auto. intros K. apply N1. apply in_map_iff in K as ([y e] & E & K). cbn in E. subst.
    apply filter_In in K as [K _]. apply in_map_iff. exists (x, e). auto. }
  assert (Hd : forall x d, dops x = Some d <-> In (x, d) ds).
  { intros x d. unfold dops. split.
    - intros H. apply map_find_in in H. apply in_rev; auto.
    - intros H. apply map_find_nodup; [rewrite map_rev; apply NoDup_rev; auto|]. apply in_rev. rewrite rev_involutive. auto. }
  assert (Hv : forall x, In x (nodup Nat.eq_dec (map fst ds)) <-> exists d, In (x, d) ds).
  { intros x. rewrite nodup_In, in_map_iff. split.
    - intros ([y d] & E & H). cbn in E. subst. eauto.
    - intros [d H]. exists (x, d). auto. }
  destruct (graph_order_ok addr (nodup Nat.eq_dec (map fst ds)) dops rank) as (order & Eo & Po & Bo).
  { intros x d y Hx K Hy. apply Hd in K. apply Hv. apply local_defaults_in in K as [K1 K2].
    destruct (Hdep x d y K1 K2 Hy) as [K3 [d' K4]]. exists d'. apply local_defaults_in. auto. }
  { intros x d y Hx K Hy. apply Hd in K. apply local_defaults_in in K as [K1 K2]. eapply Hr; eauto. }
  unfold insert_defaults. fold ds. fold dops. rewrite Eo. cbn [bind]. eexists. split; [reflexivity|].
  intros I s. set (sets := flat_map _ order). exists (run_sets I sets s). split.
  - assert (Ho : forall x, In x order <-> In x (nodup Nat.eq_dec (map fst ds))).
    { intros x. split; apply Permutation_in; auto. apply Permutation_sym; auto. }
    destruct (run_order I dops order s) as [R1 R2].
    + apply (Permutation_NoDup (l := nodup Nat.eq_dec (map fst ds))); [apply Permutation_sym; auto|apply NoDup_nodup].
    + intros x d y Hx K Hy _. apply (Bo x d y); auto. apply Ho; auto.
    + intros x d y Hx K Hy ->. apply Hd in K. apply local_defaults_in in K as [K1 K2].
      pose proof (Hr x d x K1 Hy). lia.
    + split.
      * intros x d H1 H2. assert (K : In (x, d) ds) by (apply local_defaults_in; auto).
        apply R1; [apply Ho, Hv; eauto|apply Hd; auto].
      * intros x Hx. apply R2. left. rewrite Ho, Hv. intros [d K]. apply local_defaults_in in K as [K1 K2].
        destruct Hx as [Hx|Hx]; [auto|]. eapply Hx; eauto.
  - destruct (f_algs f) as [|a r]; cbn [run_algorithms]; auto.
    rewrite run_sets_app. auto.
Qed.

Lemma map_res_bad : forall A B (f : A -> res B) l x, In x l -> (forall y, f y <> NoFuel) -> f x = Bad -> map_res f l = Bad.
Proof.
  intros A B f l x. induction l as [|y l IH]; intros H NF K; [destruct H|]. cbn.
  destruct (f y) as [z| |] eqn:E; [|cbn; reflexivity|exfalso; eapply NF; eauto]. cbn.
  destruct H as [->|H]; [congruence|]. rewrite IH; auto.
Qed.
Lemma map_res_no_fuel : forall A B (f : A -> res B) l, (forall y, f y <> NoFuel) -> map_res f l <> NoFuel.
Proof.
  intros A B f l NF. induction l as [|y l IH]; cbn; [discriminate|].
  destruct (f y) as [z| |] eqn:E; cbn; [|discriminate|exfalso; eapply NF; eauto].
  destruct (map_res f l); cbn; congruence.
Qed.

(** A dependency that is not a variable of the graph. *)
Lemma graph_order_bad : forall addr vars dops x d y, In x vars -> dops x = Some d -> In y (gets d) -> ~ In y vars ->
  graph_order addr vars dops = Bad.
Proof.
  intros addr vars dops x d y Hx Hd Hy N. unfold graph_order. cbv zeta.
  assert (P : Permutation (sort_by addr vars) vars) by apply sort_by_perm.
  set (sorted := sort_by addr vars) in *.
  assert (NF : forall z w, (of_option (place z sorted) : res nat) <> NoFuel /\ children sorted dops w <> NoFuel).
  { assert (K : forall z, (of_option (place z sorted) : res nat) <> NoFuel) by (intros z; destruct (place z sorted); cbn; discriminate).
    intros z w. split; auto. apply map_res_no_fuel. auto. }
  rewrite (map_res_bad _ _ (children sorted dops) sorted x).
  - reflexivity.
  - apply (Permutation_in x (Permutation_sym P)); auto.
  - intros w. apply (NF 0 w).
  - unfold children, dependencies. rewrite Hd. apply (map_res_bad _ _ _ _ y).
    + apply nodup_In. auto.
    + intros z. apply (NF z 0).
    + destruct (place y sorted) as [i|] eqn:E; auto. exfalso. apply N.
      apply (Permutation_in y P). apply place_nth in E. apply (nth_error_In _ _ E).
Qed.

Lemma insert_defaults_bad : forall addr f x d y, NoDup (map fst (f_defaults f)) ->
  In (x, d) (f_defaults f) -> ~ In x (inputs f) -> In y (gets d) ->
  In y (inputs f) \/ (forall d', ~ In (y, d') (f_defaults f)) -> insert_defaults addr f = Bad.
Proof.
  intros addr f x d y N H1 H2 H3 H4. unfold insert_defaults.
  assert (K : In (x, d) (local_defaults f)) by (apply local_defaults_in; auto).
  destruct (map_find x (rev (local_defaults f))) as [d'|] eqn:E.
  2:{ exfalso. apply map_find_none in E. apply E. rewrite map_rev. apply in_rev. rewrite rev_involutive.
      apply in_map_iff. exists (x, d). auto. }
  assert (d' = d).
  { apply map_find_in, in_rev, local_defaults_in in E as [E _].
    apply (default_op_in f x d' N) in E. apply (default_op_in f x d N) in H1. congruence. }
  subst d'. rewrite (graph_order_bad addr _ _ x d y); auto.
  - apply nodup_In, in_map_iff. exists (x, d). auto.
  - rewrite nodup_In, in_map_iff. intros ([z d'] & E' & G). cbn in E'. subst.
    apply local_defaults_in in G as [G1 G2]. destruct H4 as [H4|H4]; auto. eapply H4; eauto.
Qed.

(** ** What the function receives *)

Lemma passed_nth : forall f args x a, NoDup (map fst (f_vars f)) ->
  (passed f args x = Some a <-> exists i, nth_error (inputs f) i = Some x /\ nth_error args i = Some a).
Proof. intros f args x a N. apply map_find_combine. apply inputs_nodup; auto. Qed.

Lemma call_args_ok : forall I addr f c env, well_declared f -> acyclic (f_defaults f) -> legal_call f c ->
  length (c_args c) <> length (inputs f) \/ c_names c = None \/ c_names c = Some (inputs f) ->
  exists args, call_args addr f c = Ok args /\
    forall x, In x (inputs f) -> exists a, passed f args x = Some a /\ input_value I f c env x (ceval I env a).
Proof.
  intros I addr f c env Hwd Hac Hl H. pose proof Hwd as (W1 & _). unfold call_args, has_missing_args.
  destruct (Nat.eqb_spec (length (c_args c)) (length (inputs f))) as [E|E]; cbn [negb].
  - exists (c_args c). split; auto. intros x Hx. apply In_nth_error in Hx as [i Hi].
    destruct (nth_error (c_args c) i) as [a|] eqn:Ea.
    2:{ exfalso. apply nth_error_None in Ea. assert (nth_error (inputs f) i <> None) by congruence. apply nth_error_Some in H0. lia. }
    exists a. split; [apply passed_nth; auto; exists i; auto|].
    apply value_given. exists i. split; auto.
    destruct H as [H|[H|H]]; [contradiction| |]; rewrite H; auto.
  - destruct (fill_args_ok I addr f c env Hwd Hac Hl) as (args & Ea & La & Ha). exists args. split; auto.
    intros x Hx. apply In_nth_error in Hx as [i Hi]. destruct (Ha i x Hi) as (a & H1 & H2).
    exists a. split; auto. apply passed_nth; auto. exists i. auto.
Qed.

Lemma named_swapped : forall addr f c names, well_declared f -> legal_call f c -> c_names c = Some names ->
  length (c_args c) = length (inputs f) -> names <> inputs f ->
  exists args x y e, call_args addr f c = Ok args /\ x <> y /\ In x (inputs f) /\ In y (inputs f) /\
    passed f args x = Some e /\ given f c y e.
Proof.
  intros addr f c names (W1 & _) [L _] En E N. rewrite En in L. destruct L as (L1 & L2 & L3).
  assert (D : exists i x y, nth_error (inputs f) i = Some x /\ nth_error names i = Some y /\ x <> y).
  { rewrite <- L1 in E. clear - E N. revert E N. generalize (inputs f). induction names as [|n l IH]; intros [|m k] E N; cbn in E; try discriminate.
    - congruence.
    - destruct (Nat.eq_dec m n) as [->|D].
      + destruct (IH k) as (i & x & y & H); [lia|congruence|]. exists (S i), x, y. exact H.
      + exists 0, m, n. auto. }
  destruct D as (i & x & y & H1 & H2 & H3).
  destruct (nth_error (c_args c) i) as [e|] eqn:Ee.
  2:{ exfalso. apply nth_error_None in Ee. assert (nth_error (inputs f) i <> None) by congruence. apply nth_error_Some in H. lia. }
  exists (c_args c), x, y, e. unfold call_args, has_missing_args. rewrite E, Nat.eqb_refl. cbn [negb].
  split; [auto|]. split; [auto|]. split; [apply (nth_error_In _ _ H1)|]. split; [apply L3, (nth_error_In _ _ H2)|].
  split; [apply passed_nth; auto; exists i; auto|]. exists i. rewrite En. auto.
Qed.

Lemma input_names_ok : forall pos ins, length pos <= length ins -> input_names ins pos = Ok (firstn (length pos) ins).
Proof.
  induction pos as [|e pos IH]; intros [|x ins] L; cbn in *; auto; try lia.
  rewrite IH by lia. reflexivity.
Qed.
Lemma lower_named_bad : forall f pos named, named <> [] -> lower_call f pos named = Bad.
Proof.
  intros f pos [|[x e] named] N; [congruence|]. unfold lower_call, lower_args.
  destruct (input_names (inputs f) pos) as [l| |] eqn:E; cbn; auto.
  - destruct l; cbn; reflexivity.
  - exfalso. revert E. generalize (inputs f). induction pos as [|a pos IH]; intros [|z ins]; cbn; try discriminate.
    destruct (input_names ins pos) eqn:E; cbn; try discriminate. intros _. apply (IH ins E).
Qed.
