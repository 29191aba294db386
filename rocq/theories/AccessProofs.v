(** Proofs on the access functions. *)
From Coq Require Import ZArith List Bool Lia ZifyBool.
From Verif Require Import RangeModel MDRangeModel Result BoxSetModel AccessModel Spec AccessSpec
  RangeProofs MDRangeProofs BoxListProofs BoxSetProofs.
Import ListNotations.
Open Scope Z_scope.

Lemma mlir0_ok : mlir_ok mlir0.
Proof.
  split; cbn.
  - intros p e v H. destruct e as [| |a b|a b| | |]; try exact H.
    + destruct a as [d|c|x y| | | |].
      * destruct b as [|c| | | | |]; try exact H. cbn in *.
        destruct (nth_error p d) eqn:E; [|discriminate].
        destruct (c =? 0) eqn:Ec; cbn; rewrite E; [|exact H]. f_equal. injection H as H. lia.
      * destruct b as [d|c'| | | | |]; try exact H; cbn in *.
        -- destruct (nth_error p d) eqn:E; [|discriminate].
           destruct (c =? 0) eqn:Ec; cbn; rewrite E; f_equal; injection H as H; lia.
      * destruct y as [|c| | | | |]; try exact H.
        destruct b as [|c'| | | | |]; try exact H. cbn in *.
        destruct (aeval p x) as [u|] eqn:E; [|discriminate].
        destruct (c + c' =? 0) eqn:Ec; cbn; rewrite E; f_equal; injection H as H; lia.
      * exact H. * exact H. * exact H. * exact H.
    + destruct a; try exact H. destruct b; try exact H.
  - auto.
  - intros e H. destruct e as [| |a b|a b| | |]; try exact H; destruct a as [d|c|x y| | | |]; try exact H;
      try (destruct y as [|c| | | | |]; try exact H); destruct b as [d'|c'| | | | |]; try exact H;
      cbn [canon0];
      repeat match goal with |- context [if ?b then _ else _] => destruct b end; cbn in *; tauto.
  - auto.
  - intros n e H. destruct e as [| |a b|a b| | |]; try exact H; destruct a as [d|c|x y| | | |]; try exact H;
      try (destruct y as [|c| | | | |]; try exact H); destruct b as [d'|c'| | | | |]; try exact H;
      cbn [canon0];
      repeat match goal with |- context [if ?b then _ else _] => destruct b end; cbn in *; tauto.
  - auto.
  - reflexivity.
  - reflexivity.
  - reflexivity.
  - reflexivity.
  - reflexivity.
  - reflexivity.
Qed.

(** * Lists of results *)

Lemma map_res_ok : forall A B (f : A -> res B) l l',
  map_res f l = Ok l' <-> Forall2 (fun x y => f x = Ok y) l l'.
Proof.
  intros A B f. induction l as [|x l IH]; intros l'; cbn.
  - split; [intros H; injection H as <-; constructor|intros H; inversion H; reflexivity].
  - split.
    + intros H. apply bind_ok in H as (y & Hy & H). apply bind_ok in H as (ys & Hys & H).
      injection H as <-. constructor; [assumption|]. now apply IH.
    + intros H. inversion H; subst. rewrite H2. cbn. apply IH in H4. rewrite H4. reflexivity.
Qed.

Lemma map_res_total : forall A B (f : A -> res B) l,
  (forall x, In x l -> exists y, f x = Ok y) -> exists l', map_res f l = Ok l'.
Proof.
  intros A B f. induction l as [|x l IH]; intros H; cbn; [eauto|].
  destruct (H x) as (y & Hy); [now left|]. rewrite Hy. cbn.
  destruct IH as (ys & Hys); [intros; apply H; now right|]. rewrite Hys. cbn. eauto.
Qed.

Lemma map_res_length : forall A B (f : A -> res B) l l', map_res f l = Ok l' -> length l' = length l.
Proof.
  intros A B f l l' H. apply map_res_ok in H. induction H; cbn; congruence.
Qed.

Lemma map_res_in : forall A B (f : A -> res B) l l' y, map_res f l = Ok l' -> In y l' ->
  exists x, In x l /\ f x = Ok y.
Proof.
  intros A B f l l' y H. apply map_res_ok in H.
  induction H as [|a b la lb Hab H IH]; intros Hy; [destruct Hy|]. destruct Hy as [<-|Hy].
  - exists a. cbn; auto.
  - destruct (IH Hy) as (z & H1 & H2). exists z. cbn; auto.
Qed.

Lemma map_res_in2 : forall A B (f : A -> res B) l l' x, map_res f l = Ok l' -> In x l ->
  exists y, In y l' /\ f x = Ok y.
Proof.
  intros A B f l l' x H. apply map_res_ok in H.
  induction H as [|a b la lb Hab H IH]; intros Hx; [destruct Hx|]. destruct Hx as [<-|Hx].
  - exists b. cbn; auto.
  - destruct (IH Hx) as (z & H1 & H2). exists z. cbn; auto.
Qed.

(** * Points *)

Lemma points_of_point : forall p, box_points (mdrange_of_point p) = [p].
Proof.
  induction p as [|v p IH]; [reflexivity|].
  cbn [mdrange_of_point map box_points]. fold (mdrange_of_point p). rewrite IH.
  unfold range_values, range_size. cbn [rbegin rend].
  replace (v + 1 - v) with 1 by lia. change (Z.to_nat 1) with 1%nat.
  cbn [seq map flat_map app]. change (Z.of_nat 0) with 0. now rewrite Z.add_0_r.
Qed.

Lemma append_of_point : forall p q,
  mdrange_append (mdrange_of_point p) (mdrange_of_point q) = mdrange_of_point (p ++ q).
Proof. intros. unfold mdrange_append, mdrange_of_point. now rewrite map_app. Qed.

Lemma in_boxes_point : forall x q, in_boxes x [mdrange_of_point q] <-> x = q.
Proof. intros. rewrite in_boxes_single. apply of_point_in. Qed.

Lemma nth_error_some : forall A (l : list A) n, (n < length l)%nat -> exists x, nth_error l n = Some x.
Proof.
  intros A l n H. destruct (nth_error l n) eqn:E; [eauto|]. apply nth_error_None in E. lia.
Qed.

Lemma plain_val : forall n p a, plain n a -> (n <= length p)%nat -> exists v, dval p a = Some v.
Proof.
  intros n p. induction a; cbn; intros H L; try tauto; try (destruct H as (H1 & H2);
    destruct (IHa1 H1 L) as (u & ->); destruct (IHa2 H2 L) as (v & ->); eauto).
  - eauto.
  - apply nth_error_some. lia.
Qed.

Lemma plain_vals : forall n p l, Forall (plain n) l -> (n <= length p)%nat ->
  exists q, dvals p l = Some q /\ length q = length l.
Proof.
  intros n p l H L. induction H as [|a l Ha H IH]; cbn; [eauto|].
  destruct (plain_val n p a Ha L) as (v & ->). destruct IH as (q & -> & Hq).
  exists (v :: q). cbn. auto.
Qed.

Lemma bs_op_point : forall f u v w, f u v = Ok w ->
  bs_op f [mdrange_of_point [u]] [mdrange_of_point [v]] = Ok [mdrange_of_point [w]].
Proof.
  intros f u v w H. unfold bs_op, bs_points. cbn [flat_map]. rewrite !points_of_point.
  cbn [app list_prod map map_res fst snd zip_res]. rewrite H. reflexivity.
Qed.

Lemma da_map_val : forall n p cur a v, plain n a -> dval p a = Some v ->
  da_map p cur a = Ok [mdrange_of_point [v]].
Proof.
  intros n p cur. induction a; cbn [plain dval da_map]; intros v H E; try tauto;
    try (destruct H as (H1 & H2);
         destruct (dval p a1) as [u1|] eqn:E1; [|discriminate];
         destruct (dval p a2) as [u2|] eqn:E2; [|discriminate];
         rewrite (IHa1 u1 H1 eq_refl), (IHa2 u2 H2 eq_refl); injection E as <-;
         cbn [bind]; now apply bs_op_point).
  - injection E as <-. reflexivity.
  - rewrite E. reflexivity.
Qed.

Lemma append_results_val : forall n p cur rs q0 q, Forall (plain n) rs -> dvals p rs = Some q ->
  append_results p cur rs [mdrange_of_point q0] = Ok [mdrange_of_point (q0 ++ q)].
Proof.
  intros n p cur. unfold append_results. induction rs as [|a rs IH]; intros q0 q H E; cbn in *.
  - injection E as <-. now rewrite app_nil_r.
  - inversion H; subst. destruct (dval p a) as [v|] eqn:Ea; [|discriminate].
    destruct (dvals p rs) as [q'|] eqn:Er; [|discriminate]. injection E as <-.
    rewrite (da_map_val n p cur a v H2 Ea). cbn [bind bs_append flat_map map app].
    cbn. fold (mdrange_of_point q0).
    change (mdrange_append (mdrange_of_point q0) [mkRange v (v + 1)])
      with (mdrange_append (mdrange_of_point q0) (mdrange_of_point [v])).
    rewrite append_of_point. rewrite (IH (q0 ++ [v]) q' H3 eq_refl). now rewrite <- app_assoc.
Qed.

Lemma append_results_val0 : forall n p cur rs q, Forall (plain n) rs -> rs <> [] ->
  dvals p rs = Some q -> append_results p cur rs [] = Ok [mdrange_of_point q].
Proof.
  intros n p cur [|a rs] q H Hne E; [congruence|]. unfold append_results. cbn in *.
  inversion H; subst. destruct (dval p a) as [v|] eqn:Ea; [|discriminate].
  destruct (dvals p rs) as [q'|] eqn:Er; [|discriminate]. injection E as <-.
  rewrite (da_map_val n p cur a v H2 Ea). cbn [bind].
  exact (append_results_val n p cur rs [v] q' H3 Er).
Qed.

Lemma plain_spaces : forall n a, plain n a -> da_spaces a = [].
Proof.
  intros n. induction a; cbn; intros H; try tauto;
    destruct H as (H1 & H2); now rewrite (IHa1 H1), (IHa2 H2).
Qed.

Lemma plain_spaces_list : forall n rs, Forall (plain n) rs -> flat_map da_spaces rs = [].
Proof.
  intros n rs H. induction H as [|a rs Ha H IH]; [reflexivity|]. cbn. now rewrite (plain_spaces n a Ha), IH.
Qed.

Lemma gen_map_val : forall n p rs q, Forall (plain n) rs -> rs <> [] -> dvals p rs = Some q ->
  gen_map_point rs p = Ok [mdrange_of_point q].
Proof.
  intros n p rs q H Hne E. unfold gen_map_point. rewrite (plain_spaces_list n rs H).
  cbn [unique_spaces bind]. now apply (append_results_val0 n).
Qed.

(** * Affine expressions *)

Lemma aeval_some : forall n p e, no_div e -> dims_below n e -> (n <= length p)%nat ->
  exists v, aeval p e = Some v.
Proof.
  intros n p. induction e; cbn; intros H D L; try tauto; try (destruct H as (H1 & H2), D as (D1 & D2);
    destruct (IHe1 H1 D1 L) as (u & ->); destruct (IHe2 H2 D2 L) as (v & ->); eauto).
  - apply nth_error_some. lia.
  - eauto.
Qed.

Lemma affine_values_some : forall n p es, Forall no_div es -> Forall (dims_below n) es ->
  (n <= length p)%nat -> exists q, affine_values p es = Some q /\ length q = length es.
Proof.
  intros n p es H. induction H as [|e es He H IH]; intros D L; cbn; [eauto|].
  inversion D; subst. destruct (aeval_some n p e He H2 L) as (v & ->).
  destruct (IH H3 L) as (q & -> & Hq). exists (v :: q). cbn; auto.
Qed.

Lemma da_of_plain : forall n e, no_div e -> dims_below n e ->
  exists a, da_of 0 [] e = Ok a /\ plain n a /\ forall p, dval p a = aeval p e.
Proof.
  intros n. induction e; cbn; intros H D; try tauto.
  - exists (DDim d). split; [|split; [assumption|reflexivity]].
    destruct (d - 0)%nat; reflexivity.
  - exists (DConst c). repeat split.
  - destruct H as (H1 & H2), D as (D1 & D2).
    destruct (IHe1 H1 D1) as (x & -> & Px & Vx), (IHe2 H2 D2) as (y & -> & Py & Vy).
    exists (DAdd x y). split; [reflexivity|]. split; [split; assumption|].
    intros p. cbn. rewrite Vx, Vy. reflexivity.
  - destruct H as (H1 & H2), D as (D1 & D2).
    destruct (IHe1 H1 D1) as (x & -> & Px & Vx), (IHe2 H2 D2) as (y & -> & Py & Vy).
    exists (DMul x y). split; [reflexivity|]. split; [split; assumption|].
    intros p. cbn. rewrite Vx, Vy. reflexivity.
Qed.

Lemma das_of_plain : forall n es, Forall no_div es -> Forall (dims_below n) es ->
  exists rs, map_res (da_of 0 []) es = Ok rs /\ Forall (plain n) rs /\ length rs = length es /\
    forall p, dvals p rs = affine_values p es.
Proof.
  intros n es H. induction H as [|e es He H IH]; intros D; cbn.
  - exists []. repeat split. constructor.
  - inversion D; subst. destruct (da_of_plain n e He H2) as (a & -> & Pa & Va).
    destruct (IH H3) as (rs & -> & Prs & Ln & Vrs). exists (a :: rs). cbn.
    split; [reflexivity|]. split; [constructor; assumption|]. split; [congruence|].
    intros p. now rewrite Va, Vrs.
Qed.

Section Mlir.
Variable m : mlir.
Hypothesis M : mlir_ok m.

Lemma mkSub_eval : forall p a b u v, aeval p a = Some u -> aeval p b = Some v ->
  aeval p (mkSub m a b) = Some (u - v).
Proof.
  intros p a b u v Ha Hb. unfold mkSub, mkAdd, mkMul.
  apply (canon_eval m M). cbn. rewrite Ha.
  rewrite (canon_eval m M p (AMul b (AConst (-1))) (- v)); [f_equal; lia|].
  cbn. rewrite Hb. f_equal. lia.
Qed.

Lemma da_affine_plain : forall n a, plain n a ->
  exists e, da_affine m a = Ok e /\ no_div e /\ dims_below n e /\
    forall p v, dval p a = Some v -> aeval p e = Some v.
Proof.
  intros n. induction a; cbn [plain da_affine]; intros H; try tauto.
  - exists (AConst c). repeat split; auto.
  - exists (ADim d). repeat split; auto.
  - destruct H as (H1 & H2).
    destruct (IHa1 H1) as (e & -> & N1 & D1 & V1), (IHa2 H2) as (f & -> & N2 & D2 & V2).
    exists (mkAdd m e f). split; [reflexivity|]. split; [apply (canon_nodiv m M); cbn; auto|].
    split; [apply (canon_dims m M); cbn; auto|].
    intros p v. cbn. destruct (dval p a1) eqn:E1; [|discriminate]. destruct (dval p a2) eqn:E2; [|discriminate].
    intros E. apply (canon_eval m M). cbn. rewrite (V1 p z E1), (V2 p z0 E2). assumption.
  - destruct H as (H1 & H2).
    destruct (IHa1 H1) as (e & -> & N1 & D1 & V1), (IHa2 H2) as (f & -> & N2 & D2 & V2).
    exists (mkSub m e f). split; [reflexivity|].
    split; [apply (canon_nodiv m M); cbn; split; [assumption|]; apply (canon_nodiv m M); cbn; auto|].
    split; [apply (canon_dims m M); cbn; split; [assumption|]; apply (canon_dims m M); cbn; auto|].
    intros p v. cbn. destruct (dval p a1) eqn:E1; [|discriminate]. destruct (dval p a2) eqn:E2; [|discriminate].
    intros E. injection E as <-. apply mkSub_eval; auto.
  - destruct H as (H1 & H2).
    destruct (IHa1 H1) as (e & -> & N1 & D1 & V1), (IHa2 H2) as (f & -> & N2 & D2 & V2).
    exists (mkMul m e f). split; [reflexivity|]. split; [apply (canon_nodiv m M); cbn; auto|].
    split; [apply (canon_dims m M); cbn; auto|].
    intros p v. cbn. destruct (dval p a1) eqn:E1; [|discriminate]. destruct (dval p a2) eqn:E2; [|discriminate].
    intros E. apply (canon_eval m M). cbn. rewrite (V1 p z E1), (V2 p z0 E2). assumption.
Qed.

Lemma das_affine_plain : forall n rs, Forall (plain n) rs ->
  exists es, map_res (da_affine m) rs = Ok es /\ Forall no_div es /\ Forall (dims_below n) es /\
    length es = length rs /\
    forall p q, dvals p rs = Some q -> affine_values p es = Some q.
Proof.
  intros n rs H. induction H as [|a rs Ha H IH]; cbn.
  - exists []. repeat split; auto.
  - destruct (da_affine_plain n a Ha) as (e & -> & N & D & V).
    destruct IH as (es & -> & Ns & Ds & L & Vs). exists (e :: es). cbn.
    split; [reflexivity|]. split; [constructor; assumption|]. split; [constructor; assumption|].
    split; [congruence|].
    intros p q. destruct (dval p a) as [v|] eqn:E; [|discriminate].
    destruct (dvals p rs) as [q'|] eqn:E'; [|discriminate].
    intros X. injection X as <-. rewrite (V p v E), (Vs p q' E'). reflexivity.
Qed.

Lemma da_extended_plain : forall n k a fake, plain n a ->
  exists e, da_extended m k fake a = (e, fake) /\ da_affine m a = Ok e.
Proof.
  intros n k. induction a; intros fake; cbn [plain da_extended da_affine]; intros H; try tauto; eauto;
    destruct H as (H1 & H2); destruct (IHa1 fake H1) as (e & -> & ->);
    destruct (IHa2 fake H2) as (f & -> & ->); cbn; eauto.
Qed.

Lemma das_extended_plain : forall n k rs, Forall (plain n) rs ->
  exists es, das_extended m k [] rs = (es, []) /\ map_res (da_affine m) rs = Ok es.
Proof.
  intros n k rs H. induction H as [|a rs Ha H IH]; cbn; [eauto|].
  destruct (da_extended_plain n k a [] Ha) as (e & -> & ->). destruct IH as (es & -> & ->). cbn. eauto.
Qed.

(** * Classes of access functions *)

(** The results of a rotation-translation. *)
Inductive roto_expr (n : nat) : aexpr -> Prop :=
| re_dim : forall d, (d < n)%nat -> roto_expr n (ADim d)
| re_const : forall c, roto_expr n (AConst c)
| re_add : forall d c, (d < n)%nat -> c <> 0 -> roto_expr n (AAdd (ADim d) (AConst c)).

(** The value of a function on plain accesses. *)
Definition fval (f : afun) (p : point) : option point :=
  match f with
  | AFEmpty => None
  | AFAffineConstant _ rs | AFRoto _ rs => affine_values p rs
  | AFConstant _ rs | AFGeneric _ rs => dvals p rs
  end.

Definition is_AConst (e : aexpr) : Prop := match e with AConst _ => True | _ => False end.

(** What AccessFunction::build guarantees, for every access. *)
Definition af_wf (n k : nat) (f : afun) : Prop :=
  match f with
  | AFEmpty => n = 0%nat /\ k = 0%nat
  | AFAffineConstant n' rs => n' = n /\ length rs = k /\ Forall is_AConst rs /\ (n + k <> 0)%nat
  | AFConstant n' rs => n' = n /\ length rs = k /\ (1 <= k)%nat /\ Forall (fun a => is_constant_access a = true) rs
  | AFRoto n' rs => n' = n /\ length rs = k /\ (1 <= n)%nat /\ (1 <= k)%nat /\ Forall (roto_expr n) rs
  | AFGeneric n' rs => n' = n /\ length rs = k /\ (1 <= k)%nat /\ Forall (acc_below n) rs
  end.

Definition plain_af (n k : nat) (f : afun) : Prop :=
  af_wf n k f /\ (1 <= k)%nat /\
  match f with
  | AFEmpty => False
  | AFAffineConstant _ rs | AFRoto _ rs => True
  | AFConstant _ rs | AFGeneric _ rs => Forall (plain n) rs
  end.

Lemma roto_expr_nodiv : forall n e, roto_expr n e -> no_div e /\ dims_below n e.
Proof. intros n e H. destruct H; cbn; auto. Qed.

Lemma const_nodiv : forall n e, is_AConst e -> no_div e /\ dims_below n e.
Proof. intros n [] H; cbn in *; auto; tauto. Qed.

(** The affine expression of a roto access. *)
Lemma roto_affine : forall n a, is_roto_access a = true -> acc_below n a ->
  exists e, da_affine m a = Ok e /\ roto_expr n e.
Proof.
  intros n a H B. destruct a as [c|d|x y| | | | |]; try discriminate.
  - exists (AConst c). split; [reflexivity|constructor].
  - exists (ADim d). split; [reflexivity|]. constructor. assumption.
  - destruct x as [c|d| | | | | |]; try discriminate; destruct y as [c'|d'| | | | | |]; try discriminate;
      cbn in B |- *; unfold mkAdd.
    + rewrite (canon_cd m M). destruct (c =? 0) eqn:E; eexists; (split; [reflexivity|]); constructor; lia.
    + rewrite (canon_dc m M). destruct (c' =? 0) eqn:E; eexists; (split; [reflexivity|]); constructor; lia.
Qed.

Lemma roto_back : forall n e, roto_expr n e ->
  exists a, da_of 0 [] e = Ok a /\ is_roto_access a = true /\ plain n a.
Proof.
  intros n e H. destruct H as [d H|c|d c H Hc]; cbn.
  - exists (DDim d). destruct (d - 0)%nat; repeat split; auto.
  - exists (DConst c). repeat split.
  - exists (DAdd (DDim d) (DConst c)). destruct (d - 0)%nat; repeat split; auto.
Qed.

Lemma rotos_affine : forall n rs, Forall (fun a => is_roto_access a = true) rs -> Forall (acc_below n) rs ->
  exists es, map_res (da_affine m) rs = Ok es /\ Forall (roto_expr n) es /\ length es = length rs.
Proof.
  intros n rs H. induction H as [|a rs Ha H IH]; intros B; cbn.
  - exists []. repeat split; auto.
  - inversion B; subst. destruct (roto_affine n a Ha H2) as (e & -> & He).
    destruct (IH H3) as (es & -> & Hes & L). exists (e :: es). cbn. repeat split; auto.
Qed.

Lemma rotos_back : forall n es, Forall (roto_expr n) es ->
  exists rs, map_res (da_of 0 []) es = Ok rs /\ Forall (fun a => is_roto_access a = true) rs
    /\ Forall (plain n) rs /\ length rs = length es.
Proof.
  intros n es H. induction H as [|e es He H IH]; cbn.
  - exists []. repeat split; auto.
  - destruct (roto_back n e He) as (a & -> & Ha & Pa).
    destruct IH as (rs & -> & Hrs & Prs & L). exists (a :: rs). cbn. repeat split; auto.
Qed.

Lemma consts_affine : forall rs, Forall (fun a => is_DConst a = true) rs ->
  exists es, map_res (da_affine m) rs = Ok es /\ Forall is_AConst es /\ length es = length rs.
Proof.
  intros rs H. induction H as [|a rs Ha H IH]; cbn.
  - exists []. repeat split; auto.
  - destruct a; try discriminate. destruct IH as (es & -> & Hes & L). cbn.
    exists (AConst c :: es). cbn. repeat split; auto.
    constructor; [exact I|assumption].
Qed.

(** The class chosen by build, and that nothing fails. *)
Lemma build0_wf : forall n rs, Forall (acc_below n) rs ->
  exists f, af_build0 m n rs = Ok f /\ af_wf n (length rs) f.
Proof.
  intros n rs B. unfold af_build0.
  destruct (Nat.eqb n 0 && match rs with [] => true | _ => false end) eqn:E0.
  { exists AFEmpty. split; [reflexivity|]. destruct rs; [|destruct (Nat.eqb n 0); discriminate].
    cbn. destruct (Nat.eqb_spec n 0); [auto|discriminate]. }
  destruct (forallb is_DConst rs) eqn:E1.
  { rewrite forallb_forall in E1. apply Forall_forall in E1.
    destruct (consts_affine rs E1) as (es & -> & Hes & L). cbn.
    exists (AFAffineConstant n es). split; [reflexivity|]. cbn. repeat split; auto.
    destruct rs; cbn in *; [|lia]. destruct (Nat.eqb_spec n 0); [discriminate|lia]. }
  assert (Hne : rs <> []) by (intros ->; discriminate).
  assert (L1 : (1 <= length rs)%nat) by (destruct rs; [congruence|cbn; lia]).
  destruct (forallb is_constant_access rs) eqn:E2.
  { exists (AFConstant n rs). split; [reflexivity|]. cbn. repeat split; auto.
    apply Forall_forall. now apply forallb_forall. }
  destruct (roto_canBeBuilt n rs) eqn:E3.
  { unfold roto_canBeBuilt in E3. apply andb_prop in E3 as (E3 & E5). apply andb_prop in E3 as (E3 & E4).
    assert (Hn : (1 <= n)%nat) by (destruct (Nat.eqb_spec n 0); [discriminate|lia]).
    assert (F : Forall (fun a => is_roto_access a = true) rs)
      by (apply Forall_forall; now apply forallb_forall).
    destruct (rotos_affine n rs F B) as (es & -> & Hes & L). cbn [bind].
    destruct (rotos_back n es Hes) as (ds & -> & Hds & _ & L'). cbn [bind].
    assert (C : roto_canBeBuilt n ds = true).
    { unfold roto_canBeBuilt. rewrite E3. destruct ds; [cbn in L'; lia|]. cbn [andb].
      apply forallb_forall. now apply Forall_forall. }
    rewrite C. cbn. exists (AFRoto n es). split; [reflexivity|]. cbn. repeat split; auto; lia. }
  exists (AFGeneric n rs). split; [reflexivity|]. cbn. repeat split; auto.
Qed.

Lemma plain_below : forall n a, plain n a -> acc_below n a.
Proof. intros n. induction a; cbn; tauto. Qed.

Lemma plain_constant : forall n a, plain n a -> is_constant_access a = true -> is_DConst a = true.
Proof. intros n [] H; cbn in *; auto; tauto. Qed.

(** build on plain accesses keeps the value. *)
Lemma build0_plain : forall n rs, Forall (plain n) rs -> rs <> [] ->
  exists f, af_build0 m n rs = Ok f /\ plain_af n (length rs) f /\
    forall p q, dvals p rs = Some q -> fval f p = Some q.
Proof.
  intros n rs P Hne.
  assert (B : Forall (acc_below n) rs) by (eapply Forall_impl; [|exact P]; apply plain_below).
  destruct (build0_wf n rs B) as (f & Hf & W). exists f. split; [assumption|].
  assert (L1 : (1 <= length rs)%nat) by (destruct rs; [congruence|cbn; lia]).
  unfold af_build0 in Hf.
  destruct (Nat.eqb n 0 && match rs with [] => true | _ => false end) eqn:E0.
  { destruct rs; [congruence|]. rewrite andb_false_r in E0. discriminate. }
  destruct (forallb is_DConst rs) eqn:E1.
  { apply bind_ok in Hf as (es & He & Hf). injection Hf as <-.
    split; [split; [assumption|split; auto]|].
    intros p q Hq. cbn. destruct (das_affine_plain n rs P) as (es' & He' & _ & _ & _ & V).
    rewrite He in He'. injection He' as <-. auto. }
  destruct (forallb is_constant_access rs) eqn:E2.
  { exfalso. assert (forallb is_DConst rs = true); [|congruence].
    apply forallb_forall. intros a Ha. apply (plain_constant n).
    - rewrite Forall_forall in P. auto.
    - rewrite forallb_forall in E2. auto. }
  destruct (roto_canBeBuilt n rs) eqn:E3.
  { apply bind_ok in Hf as (es & He & Hf). apply bind_ok in Hf as (ds & Hd & Hf).
    apply bind_ok in Hf as (u & Hu & Hf). injection Hf as <-.
    split; [split; [assumption|split; auto]|].
    intros p q Hq. cbn. destruct (das_affine_plain n rs P) as (es' & He' & _ & _ & _ & V).
    rewrite He in He'. injection He' as <-. auto. }
  injection Hf as <-. split; [split; [assumption|split; auto]|]. auto.
Qed.

Lemma fval_point : forall n k f p q, plain_af n k f -> (n <= length p)%nat ->
  fval f p = Some q -> af_map_point f p = Ok [mdrange_of_point q].
Proof.
  intros n k f p q (W & K & P) L E. destruct f as [|n' rs|n' rs|n' rs|n' rs]; cbn in *.
  - tauto.
  - destruct W as (-> & _). unfold point_eval. destruct (Nat.leb_spec n (length p)); [|lia]. cbn.
    assert (X : map_res (fun e => of_option (aeval p e)) rs = Ok q).
    { clear - E. revert q E. induction rs as [|e rs IH]; intros q E; cbn in *; [now injection E as <-|].
      destruct (aeval p e); [|discriminate]. destruct (affine_values p rs); [|discriminate].
      injection E as <-. cbn. now rewrite (IH p0 eq_refl). }
    now rewrite X.
  - destruct W as (-> & Lr & _). apply (gen_map_val n); auto. intros ->. cbn in Lr. lia.
  - destruct W as (-> & _). unfold point_eval. destruct (Nat.leb_spec n (length p)); [|lia]. cbn.
    assert (X : map_res (fun e => of_option (aeval p e)) rs = Ok q).
    { clear - E. revert q E. induction rs as [|e rs IH]; intros q E; cbn in *; [now injection E as <-|].
      destruct (aeval p e); [|discriminate]. destruct (affine_values p rs); [|discriminate].
      injection E as <-. cbn. now rewrite (IH p0 eq_refl). }
    now rewrite X.
  - destruct W as (-> & Lr & _). apply (gen_map_val n); auto. intros ->. cbn in Lr. lia.
Qed.

Lemma fval_total : forall n k f p, plain_af n k f -> (n <= length p)%nat ->
  exists q, fval f p = Some q /\ length q = k.
Proof.
  intros n k f p (W & K & P) L. destruct f as [|n' rs|n' rs|n' rs|n' rs]; cbn in *.
  - tauto.
  - destruct W as (-> & <- & W & _). apply (affine_values_some n); auto;
      (eapply Forall_impl; [|exact W]); intros e He; apply (const_nodiv n e He).
  - destruct W as (-> & <- & W & _). now apply (plain_vals n).
  - destruct W as (-> & <- & _ & _ & W). apply (affine_values_some n); auto;
      (eapply Forall_impl; [|exact W]); intros e He; apply (roto_expr_nodiv n e He).
  - destruct W as (-> & <- & W & _). now apply (plain_vals n).
Qed.

Lemma simps_nodiv : forall k es, Forall no_div es -> Forall no_div (map (simp m k) es).
Proof. intros k es H. induction H; cbn; constructor; auto. now apply (simp_nodiv m M). Qed.
Lemma simps_dims : forall k n es, Forall (dims_below n) es -> Forall (dims_below n) (map (simp m k) es).
Proof. intros k n es H. induction H; cbn; constructor; auto. now apply (simp_dims m M). Qed.
Lemma simps_vals : forall k p es q, affine_values p es = Some q ->
  affine_values p (map (simp m k) es) = Some q.
Proof.
  intros k p. induction es as [|e es IH]; intros q H; cbn in *; [assumption|].
  destruct (aeval p e) as [v|] eqn:E; [|discriminate]. destruct (affine_values p es) as [q'|]; [|discriminate].
  injection H as <-. rewrite (simp_eval m M k p e v E), (IH q' eq_refl). reflexivity.
Qed.

Lemma build_map_plain : forall n es, Forall no_div es -> Forall (dims_below n) es -> es <> [] ->
  exists f, af_build_map m n es = Ok f /\ plain_af n (length es) f /\
    forall p q, affine_values p es = Some q -> fval f p = Some q.
Proof.
  intros n es N D Hne. unfold af_build_map.
  destruct (das_of_plain n (map (simp m n) es)) as (rs & -> & P & L & V);
    [now apply simps_nodiv|now apply simps_dims|]. cbn [bind].
  rewrite map_length in L.
  destruct (build0_plain n rs P) as (f & -> & Pf & Vf).
  { intros ->. destruct es; [congruence|discriminate]. }
  exists f. split; [reflexivity|]. split; [now rewrite <- L|].
  intros p q Hq. apply Vf. rewrite V. now apply simps_vals.
Qed.

Lemma da_of_nofake : forall base e, da_of base [] e = da_of 0 [] e.
Proof.
  intros base. induction e; cbn; try reflexivity; try (rewrite IHe1, IHe2; reflexivity).
  destruct (Nat.leb base d); [|destruct (d - 0)%nat; reflexivity].
  destruct (d - base)%nat, (d - 0)%nat; reflexivity.
Qed.

Lemma build_plain : forall n rs, Forall (plain n) rs -> rs <> [] ->
  exists f, af_build m n rs = Ok f /\ plain_af n (length rs) f /\
    forall p q, dvals p rs = Some q -> fval f p = Some q.
Proof.
  intros n rs P Hne. unfold af_build.
  destruct (das_extended_plain n n rs P) as (es & -> & He).
  destruct (das_affine_plain n rs P) as (es' & He' & N & D & L & V).
  rewrite He in He'. injection He' as <-. cbn [length]. rewrite Nat.add_0_r.
  unfold af_fromExtended. cbn [length]. rewrite Nat.sub_0_r.
  assert (R : map_res (da_of n []) (map (simp m n) (map (simp m n) es))
              = map_res (da_of 0 []) (map (simp m n) (map (simp m n) es))).
  { generalize (map (simp m n) (map (simp m n) es)). induction l as [|e l IH]; cbn; [reflexivity|].
    now rewrite da_of_nofake, IH. }
  rewrite R.
  assert (E : (es <> [])) by (intros ->; destruct rs; [congruence|discriminate]).
  destruct (build_map_plain n (map (simp m n) es)) as (f & Hf & Pf & Vf).
  - now apply simps_nodiv.
  - now apply simps_dims.
  - destruct es; [congruence|discriminate].
  - unfold af_build_map in Hf. exists f. split; [assumption|].
    rewrite map_length, L in Pf. split; [assumption|].
    intros p q Hq. apply Vf. now apply simps_vals, V.
Qed.

Lemma affine_access_plain : forall n k f, affine_access m n k f -> plain_af n k f.
Proof.
  intros n k f H. destruct H as [n es f D N Hne H|n rs f P Hne H].
  - destruct (build_map_plain n es N D Hne) as (g & Hg & Pg & _). rewrite H in Hg.
    injection Hg as <-. assumption.
  - destruct (build_plain n rs P Hne) as (g & Hg & Pg & _). rewrite H in Hg.
    injection Hg as <-. assumption.
Qed.

Lemma singleton_maps : forall f p q, af_map_point f p = Ok [mdrange_of_point q] -> maps_to f p q.
Proof. intros f p q H. exists [mdrange_of_point q]. split; [assumption|]. intros x. apply in_boxes_point. Qed.

Lemma plain_maps : forall n k f p, plain_af n k f -> (n <= length p)%nat ->
  exists q, length q = k /\ fval f p = Some q /\ maps_to f p q.
Proof.
  intros n k f p P L. destruct (fval_total n k f p P L) as (q & Hq & Lq).
  exists q. split; [assumption|]. split; [assumption|]. apply singleton_maps. now apply (fval_point n k).
Qed.

(** A value of a plain access only depends on the first dimensions. *)
Lemma dval_more : forall n p a q, plain n a -> (n <= length p)%nat -> dval (p ++ q) a = dval p a.
Proof.
  intros n p. induction a; intros q H L; cbn in *; try tauto; try reflexivity;
    try (destruct H as (H1 & H2); now rewrite (IHa1 q H1 L), (IHa2 q H2 L)).
  apply nth_error_app1. lia.
Qed.
End Mlir.
