From Coq Require Import List Arith Bool Lia.
Import ListNotations.
From Verif Require Import RecordRefModel RecordRefProofs RecordCallModel RecordCallSpec.

Definition flat1 (x : fvar) : list (list nat) := map (fun l => fst x ++ l) (leaves (snd (snd x))).
Definition flats (xs : list fvar) : list (list nat) := flat_map flat1 xs.

Lemma flats_app xs ys : flats (xs ++ ys) = flats xs ++ flats ys.
Proof. apply flat_map_app. Qed.

Lemma flats_components p r fs : flats (components p r fs) = flat1 (p, (r, TRec fs)).
Proof.
  unfold components, flats, flat1. cbn [fst snd leaves].
  induction fs as [|c fs IH]; cbn [map flat_map]; [reflexivity|].
  rewrite map_app, <- IH. f_equal. cbn [fst snd]. rewrite map_map. apply map_ext.
  intros l. rewrite <- app_assoc. reflexivity.
Qed.

Lemma flats_single x : flats [x] = flat1 x.
Proof. unfold flats. cbn [flat_map]. apply app_nil_r. Qed.

Lemma flats_expand p xs : flats (flat_map (expand_var p) xs) = flats xs.
Proof.
  induction xs as [|x xs IH]; cbn [flat_map]; [reflexivity|].
  rewrite flats_app, IH. change (flats (x :: xs)) with (flat1 x ++ flats xs). f_equal.
  unfold expand_var. destruct (path_eqb (fst x) p); [|apply flats_single].
  destruct x as [q [r t]]. cbn [fst snd]. destruct t; [apply flats_single | apply flats_components].
Qed.

Lemma flats_expand_all ps : forall xs, flats (expand_vars ps xs) = flats xs.
Proof. induction ps; intros xs; cbn [expand_vars]; [reflexivity|]. now rewrite IHps, flats_expand. Qed.

Lemma flats_done xs : no_record_vars xs -> flats xs = map fst xs.
Proof.
  induction xs as [|[p [r t]] xs IH]; intros H; [reflexivity|].
  change (flats ((p, (r, t)) :: xs)) with (flat1 (p, (r, t)) ++ flats xs).
  rewrite IH by (intros q r' t' Hin; eapply H; right; exact Hin).
  rewrite (H p r t (or_introl eq_refl)). unfold flat1. cbn [fst snd leaves map]. now rewrite app_nil_r.
Qed.

(** ** Arguments *)
Definition triple : Type := list nat * (nat * list nat).
Definition lab (a : arg) (l : list nat) : list nat := match a_label a with [] => [] | b => b ++ l end.
Definition aflat1 (a : arg) : list triple :=
  map (fun l => (lab a l, (a_val a, a_comps a ++ l))) (leaves (a_ty a)).
Definition aflats (args : list arg) : list triple := flat_map aflat1 args.

Lemma aflats_app xs ys : aflats (xs ++ ys) = aflats xs ++ aflats ys.
Proof. apply flat_map_app. Qed.

Lemma aflats_comps a fs : a_ty a = TRec fs -> aflats (map (comp_arg a) fs) = aflat1 a.
Proof.
  intros E. unfold aflat1. rewrite E. cbn [leaves]. unfold aflats. clear E.
  induction fs as [|c fs IH]; cbn [map flat_map]; [reflexivity|].
  rewrite map_app, <- IH. f_equal. unfold aflat1, comp_arg. cbn [a_ty a_val a_comps]. rewrite map_map.
  apply map_ext. intros l. unfold lab. cbn [a_label]. destruct (a_label a) as [|b bs];
    rewrite <- ?app_assoc; try reflexivity.
  cbn [app]. rewrite <- app_assoc. reflexivity.
Qed.

Lemma aflats_unpack a : forall args args', unpack_arg a args = Some args' -> aflats args' = aflats args.
Proof.
  induction args as [|x args IH]; cbn [unpack_arg]; intros args' E; [now injection E as <-|].
  destruct (unpack_arg a args) as [rest|]; [|discriminate].
  change (aflats (x :: args)) with (aflat1 x ++ aflats args). rewrite <- (IH _ eq_refl).
  destruct (same_value x a).
  - destruct (a_rank x); [|discriminate]. destruct (a_ty x) eqn:T; [discriminate|]. injection E as <-.
    rewrite aflats_app. f_equal. apply aflats_comps. exact T.
  - injection E as <-. reflexivity.
Qed.

Lemma aflats_unpack_all order : forall args args', unpack_args order args = Some args' -> aflats args' = aflats args.
Proof.
  induction order as [|a order IH]; cbn [unpack_args]; intros args args' E; [now injection E as <-|].
  destruct (unpack_arg a args) as [args1|] eqn:U; [|discriminate].
  rewrite (IH _ _ E). eapply aflats_unpack; exact U.
Qed.

Lemma aflats_done args : no_record_args args ->
  aflats args = map (fun a => (a_label a, (a_val a, a_comps a))) args.
Proof.
  induction args as [|a args IH]; intros H; [reflexivity|].
  change (aflats (a :: args)) with (aflat1 a ++ aflats args).
  rewrite IH by (intros b Hin; apply H; right; exact Hin).
  unfold aflat1. rewrite (H a (or_introl eq_refl)). cbn [leaves map app]. unfold lab.
  rewrite app_nil_r. destruct (a_label a); [reflexivity | now rewrite app_nil_r].
Qed.

Definition passes3 (args : list arg) (inputs : list fvar) (y : triple) (p : list nat) : Prop :=
  exists i a0 x0 path, nth_error args i = Some a0 /\ nth_error inputs i = Some x0 /\
    y = (lab a0 path, (a_val a0, a_comps a0 ++ path)) /\ p = fst x0 ++ path.

Lemma Forall2_app_own {A B} (R : A -> B -> Prop) l1 l2 m1 m2 :
  Forall2 R l1 m1 -> Forall2 R l2 m2 -> Forall2 R (l1 ++ l2) (m1 ++ m2).
Proof. induction 1; cbn [app]; auto. Qed.

Lemma fits_flats args inputs : fits args inputs -> Forall2 (passes3 args inputs) (aflats args) (flats inputs).
Proof.
  unfold fits. induction 1 as [|a x args inputs E H IH]; [constructor|].
  change (aflats (a :: args)) with (aflat1 a ++ aflats args).
  change (flats (x :: inputs)) with (flat1 x ++ flats inputs).
  apply Forall2_app_own.
  - unfold aflat1, flat1. rewrite E. induction (leaves (snd (snd x))) as [|l ls IHl]; cbn [map]; constructor.
    + exists 0, a, x, l. auto.
    + exact IHl.
  - clear - IH. induction IH as [|y p ys ps P F IHF]; constructor; [|exact IHF].
    destruct P as (i & a0 & x0 & path & P). exists (S i), a0, x0, path. exact P.
Qed.

Lemma Forall2_maps {A B C D} (R : C -> D -> Prop) (f : A -> C) (g : B -> D) :
  forall l m, Forall2 R (map f l) (map g m) -> Forall2 (fun a b => R (f a) (g b)) l m.
Proof.
  induction l as [|a l IH]; intros [|b m] H; cbn [map] in H; inversion H; subst; constructor; auto.
Qed.

Lemma Forall2_mono {A B} (R R' : A -> B -> Prop) : (forall a b, R a b -> R' a b) ->
  forall l m, Forall2 R l m -> Forall2 R' l m.
Proof. intros H l m F. induction F; constructor; auto. Qed.

Lemma args_pass order ps args inputs args' :
  fits args inputs -> unpack_args order args = Some args' ->
  no_record_args args' -> no_record_vars (expand_vars ps inputs) ->
  Forall2 (passes args inputs) args' (expand_vars ps inputs).
Proof.
  intros F U NA NV.
  pose proof (fits_flats _ _ F) as H.
  rewrite <- (aflats_unpack_all _ _ _ U), (aflats_done _ NA) in H.
  rewrite <- (flats_expand_all ps), (flats_done _ NV) in H.
  apply Forall2_maps in H. eapply Forall2_mono; [|exact H].
  intros a x (i & a0 & x0 & path & E1 & E2 & E3 & E4). cbv beta in *. injection E3 as L V C.
  exists i, a0, x0, path. unfold lab in L. repeat split; auto.
  - intros Z. rewrite Z in L. exact L.
  - intros Z. destruct (a_label a0); [congruence | exact L].
Qed.

(** ** Ranks *)
Fixpoint lranks (t : rty) : list nat :=
  match t with
  | TBase => [0]
  | TRec fs => flat_map (fun c => map (fun k => fst (snd c) + k) (lranks (snd (snd c)))) fs
  end.
Definition rflat (r : nat) (t : rty) : list nat := map (fun k => r + k) (lranks t).
Definition vranks (xs : list fvar) : list nat := flat_map (fun x => rflat (fst (snd x)) (snd (snd x))) xs.
Definition aranks (args : list arg) : list nat := flat_map (fun a => rflat (a_rank a) (a_ty a)) args.

Lemma vranks_components p r fs : vranks (components p r fs) = rflat r (TRec fs).
Proof.
  unfold components, vranks, rflat. cbn [lranks].
  induction fs as [|c fs IH]; cbn [map flat_map]; [reflexivity|].
  rewrite map_app, <- IH. f_equal. cbn [fst snd]. rewrite map_map. apply map_ext. intros k. lia.
Qed.

Lemma vranks_app xs ys : vranks (xs ++ ys) = vranks xs ++ vranks ys.
Proof. apply flat_map_app. Qed.

Lemma vranks_single x : vranks [x] = rflat (fst (snd x)) (snd (snd x)).
Proof. unfold vranks. cbn [flat_map]. apply app_nil_r. Qed.

Lemma vranks_expand p xs : vranks (flat_map (expand_var p) xs) = vranks xs.
Proof.
  induction xs as [|x xs IH]; cbn [flat_map]; [reflexivity|].
  rewrite vranks_app, IH. change (vranks (x :: xs)) with (rflat (fst (snd x)) (snd (snd x)) ++ vranks xs). f_equal.
  unfold expand_var. destruct (path_eqb (fst x) p); [|apply vranks_single].
  destruct x as [q [r t]]. cbn [fst snd]. destruct t; [apply (vranks_single (q, (r, TBase))) | apply vranks_components].
Qed.

Lemma vranks_expand_all ps : forall xs, vranks (expand_vars ps xs) = vranks xs.
Proof. induction ps; intros xs; cbn [expand_vars]; [reflexivity|]. now rewrite IHps, vranks_expand. Qed.

Lemma vranks_done xs : no_record_vars xs -> vranks xs = map (fun x => fst (snd x)) xs.
Proof.
  induction xs as [|[p [r t]] xs IH]; intros H; [reflexivity|].
  unfold vranks in *. cbn [flat_map map fst snd].
  rewrite IH by (intros q r' t' Hin; eapply H; right; exact Hin).
  rewrite (H p r t (or_introl eq_refl)). unfold rflat. cbn [lranks map app]. now rewrite Nat.add_0_r.
Qed.

Lemma aranks_comps a fs : aranks (map (comp_arg a) fs) = rflat 0 (TRec fs).
Proof.
  unfold aranks, rflat. cbn [lranks].
  induction fs as [|c fs IH]; cbn [map flat_map]; [reflexivity|].
  rewrite map_app, <- IH. f_equal. unfold comp_arg, rflat. cbn [a_ty a_rank]. rewrite map_map.
  apply map_ext. intros k. lia.
Qed.

Lemma aranks_unpack a : forall args args', unpack_arg a args = Some args' -> aranks args' = aranks args.
Proof.
  induction args as [|x args IH]; cbn [unpack_arg]; intros args' E; [now injection E as <-|].
  destruct (unpack_arg a args) as [rest|]; [|discriminate].
  change (aranks (x :: args)) with (rflat (a_rank x) (a_ty x) ++ aranks args). rewrite <- (IH _ eq_refl).
  destruct (same_value x a).
  - destruct (a_rank x); [|discriminate]. destruct (a_ty x) eqn:T; [discriminate|]. injection E as <-.
    unfold aranks. rewrite flat_map_app. f_equal. apply aranks_comps.
  - injection E as <-. reflexivity.
Qed.

Lemma aranks_unpack_all order : forall args args', unpack_args order args = Some args' -> aranks args' = aranks args.
Proof.
  induction order as [|a order IH]; cbn [unpack_args]; intros args args' E; [now injection E as <-|].
  destruct (unpack_arg a args) as [args1|] eqn:U; [|discriminate].
  rewrite (IH _ _ E). eapply aranks_unpack; exact U.
Qed.

Lemma aranks_done args : no_record_args args -> aranks args = map a_rank args.
Proof.
  induction args as [|a args IH]; intros H; [reflexivity|].
  unfold aranks in *. cbn [flat_map map]. rewrite IH by (intros b Hin; apply H; right; exact Hin).
  unfold rflat. rewrite (H a (or_introl eq_refl)). cbn [lranks map app]. now rewrite Nat.add_0_r.
Qed.

Lemma Forall2_of_maps {A B} (f : A -> nat) (g : B -> nat) : forall l m,
  map f l = map g m -> Forall2 (fun a b => f a = g b) l m.
Proof.
  induction l as [|a l IH]; intros [|b m] E; try discriminate; [constructor|].
  injection E as E1 E2. constructor; auto.
Qed.

Lemma args_ranks order ps args inputs args' :
  fits args inputs -> same_ranks args inputs -> unpack_args order args = Some args' ->
  no_record_args args' -> no_record_vars (expand_vars ps inputs) ->
  same_ranks args' (expand_vars ps inputs).
Proof.
  intros F R U NA NV. apply Forall2_of_maps.
  rewrite <- (aranks_done _ NA), (aranks_unpack_all _ _ _ U).
  etransitivity; [|exact (vranks_done _ NV)]. rewrite vranks_expand_all.
  clear - F R. unfold fits, same_ranks in *. induction F as [|a x args inputs E F IH]; [reflexivity|].
  inversion R; subst. unfold aranks, vranks in *. cbn [flat_map]. rewrite IH by assumption.
  f_equal. f_equal; assumption.
Qed.

(** ** Results *)
Lemma result_comps_width x l : result_comps x = Some l -> length l = width x.
Proof.
  unfold result_comps, width. destruct (snd (snd x)) as [|fs].
  - intros E; injection E as <-. reflexivity.
  - destruct forallb; [|discriminate]. intros E; injection E as <-. unfold components. apply map_length.
Qed.

Lemma new_results_flats : forall xs xs', new_results xs = Some xs' -> flats xs' = flats xs.
Proof.
  induction xs as [|x xs IH]; cbn [new_results]; intros xs' E; [now injection E as <-|].
  destruct (result_comps x) as [l|] eqn:R; [|discriminate].
  destruct (new_results xs) as [l'|]; [|discriminate]. injection E as <-.
  rewrite flats_app. change (flats (x :: xs)) with (flat1 x ++ flats xs). rewrite (IH _ eq_refl). f_equal.
  destruct x as [q [r t]]. unfold result_comps in R. cbn [fst snd] in R. destruct t as [|fs].
  - injection R as <-. apply flats_single.
  - destruct forallb; [|discriminate]. injection R as <-. apply flats_components.
Qed.

Lemma new_results_nth : forall xs xs' k x l m,
  new_results xs = Some xs' -> nth_error xs k = Some x -> result_comps x = Some l -> m < length l ->
  nth_error xs' (list_sum (map width (firstn k xs)) + m) = nth_error l m.
Proof.
  induction xs as [|y xs IH]; intros xs' k x l m E K R M; [destruct k; discriminate|].
  cbn [new_results] in E. destruct (result_comps y) as [ly|] eqn:Ry; [|discriminate].
  destruct (new_results xs) as [l'|]; [|discriminate]. injection E as <-.
  destruct k as [|k]; cbn [nth_error firstn] in K |- *.
  - injection K as <-. rewrite R in Ry. injection Ry as <-. cbn [map list_sum fold_right Nat.add].
    apply nth_error_app1. exact M.
  - change (list_sum (map width (y :: firstn k xs))) with (width y + list_sum (map width (firstn k xs))).
    rewrite <- (result_comps_width _ _ Ry). rewrite nth_error_app2 by lia.
    replace (length ly + list_sum (map width (firstn k xs)) + m - length ly)
      with (list_sum (map width (firstn k xs)) + m) by lia.
    eapply IH; eauto.
Qed.

Lemma new_results_comps : forall xs xs' k x,
  new_results xs = Some xs' -> nth_error xs k = Some x -> exists l, result_comps x = Some l.
Proof.
  induction xs as [|y xs IH]; intros xs' k x E K; [destruct k; discriminate|].
  cbn [new_results] in E. destruct (result_comps y) as [ly|] eqn:Ry; [|discriminate].
  destruct (new_results xs) as [l'|]; [|discriminate].
  destruct k as [|k]; cbn [nth_error] in K; [injection K as <-; eauto|]. eapply IH; eauto.
Qed.

Lemma position_nth f p r : forall fs k, position f fs = Some k ->
  exists rt, nth_error (components p r fs) k = Some (p ++ [f], rt).
Proof.
  induction fs as [|[g c] fs IH]; cbn [position]; intros k E; [discriminate|].
  destruct (g =? f) eqn:G.
  - injection E as <-. apply Nat.eqb_eq in G. subst g. eexists. reflexivity.
  - destruct (position f fs) as [m|]; [|discriminate]. injection E as <-. apply IH. reflexivity.
Qed.

Lemma plain_sum l : Forall (fun x : fvar => snd (snd x) = TBase) l ->
  length (filter (fun x => negb (is_record x)) l) = length l /\ list_sum (map width l) = length l.
Proof.
  induction 1 as [|x l E H [I1 I2]]; [split; reflexivity|].
  cbn [filter]. unfold is_record at 1. rewrite E. cbn [negb length].
  change (list_sum (map width (x :: l))) with (width x + list_sum (map width l)).
  unfold width at 1. rewrite E. lia.
Qed.

Lemma plain_before xs k p r : plain_first xs -> nth_error xs k = Some (p, (r, TBase)) ->
  Forall (fun x : fvar => snd (snd x) = TBase) (firstn k xs).
Proof.
  intros (l & l' & -> & P & R) K.
  destruct (Nat.lt_ge_cases k (length l)) as [L|L].
  - rewrite firstn_app. replace (k - length l) with 0 by lia. cbn [firstn]. rewrite app_nil_r.
    apply Forall_forall. intros x Hin. rewrite Forall_forall in P. apply P.
    rewrite <- (firstn_skipn k l). apply in_or_app. left. exact Hin.
  - rewrite nth_error_app2 in K by lia. apply nth_error_In in K.
    rewrite Forall_forall in R. apply R in K. cbn in K. congruence.
Qed.

Lemma use_step xs xs' u u' p :
  plain_first xs -> new_results xs = Some xs' -> new_use xs u = Some u' -> is_of xs u p -> is_of xs' u' p.
Proof.
  intros PF E U ([q [r t]] & K & ->). unfold new_use in U. rewrite K in U.
  destruct (new_results_comps _ _ _ _ E K) as [l R].
  destruct t as [|fs].
  - injection U as <-. pose proof (plain_sum _ (plain_before _ _ _ _ PF K)) as [S1 S2].
    exists (q, (r, TBase)). split; [|reflexivity]. cbn [fst].
    cbv [result_comps] in R. cbn [snd] in R. injection R as <-.
    pose proof (new_results_nth _ _ _ _ [(q, (r, TBase))] 0 E K eq_refl (Nat.lt_0_succ 0)) as N.
    rewrite Nat.add_0_r, S2 in N. rewrite S1. exact N.
  - destruct u as [k path]. cbn [fst snd] in *. destruct path as [|f path]; [discriminate|].
    destruct (position f fs) as [m|] eqn:P; [|discriminate]. injection U as <-.
    pose proof R as R'. unfold result_comps in R. cbn [snd fst] in R. destruct forallb; [|discriminate]. injection R as <-.
    destruct (position_nth f q r _ _ P) as [rt N].
    exists (q ++ [f], rt). cbn [fst snd]. split; [|rewrite <- app_assoc; reflexivity].
    etransitivity; [|exact N]. eapply new_results_nth; eauto. apply nth_error_Some. intros Z.
    assert (Z' : Some (q ++ [f], rt) = None) by (rewrite <- N; exact Z). discriminate.
Qed.

Lemma results_kept : forall n xs u xs' u' p,
  tidy xs -> is_of xs u p -> unpack_results n xs u = Some (xs', u') -> is_of xs' u' p /\ flats xs' = flats xs.
Proof.
  induction n as [|n IH]; cbn [unpack_results]; intros xs u xs' u' p T I E.
  - injection E as <- <-. auto.
  - destruct (existsb is_record xs) eqn:X; [|injection E as <- <-; auto].
    destruct (new_results xs) as [xs1|] eqn:R; [|discriminate].
    destruct (new_use xs u) as [u1|] eqn:U; [|discriminate].
    destruct T as [xs PF T].
    destruct (IH _ _ _ _ p (T _ R X) (use_step _ _ _ _ _ PF R U I) E) as [I' F].
    split; [exact I'|]. rewrite F. eapply new_results_flats; exact R.
Qed.

Lemma shifted xs xs' j p r i q r' c fs :
  new_results xs = Some xs' -> nth_error xs j = Some (p, (r, TBase)) -> i < j ->
  nth_error xs i = Some (q, (r', TRec (c :: fs))) ->
  exists k k', nth_error xs' k = Some (p, (r, TBase)) /\ new_use xs (j, []) = Some (k', []) /\ k' < k.
Proof.
  intros E J L I.
  exists (list_sum (map width (firstn j xs)) + 0), (length (filter (fun x => negb (is_record x)) (firstn j xs))).
  split; [|split].
  - rewrite (new_results_nth _ _ _ _ [(p, (r, TBase))] 0 E J eq_refl (Nat.lt_0_succ 0)). reflexivity.
  - unfold new_use. cbn [fst]. rewrite J. reflexivity.
  - rewrite Nat.add_0_r. clear E J. revert i j L I. induction xs as [|x xs IH]; intros i j L I; [destruct i; discriminate|].
    assert (G : forall l : list fvar, length (filter (fun x => negb (is_record x)) l) <= list_sum (map width l)).
    { clear. induction l as [|x l IHl]; [cbn; lia|].
      change (list_sum (map width (x :: l))) with (width x + list_sum (map width l)).
      cbn [filter]. destruct (is_record x) eqn:X; cbn [negb length]; [lia|].
      unfold is_record in X. unfold width at 1. destruct (snd (snd x)); [lia | discriminate]. }
    destruct j as [|j]; [lia|]. cbn [firstn].
    change (list_sum (map width (x :: firstn j xs))) with (width x + list_sum (map width (firstn j xs))).
    destruct i as [|i]; cbn [nth_error] in I.
    + injection I as ->. cbn [filter is_record snd negb]. unfold width at 1. cbn [snd length].
      pose proof (G (firstn j xs)). lia.
    + pose proof (IH i j ltac:(lia) I) as H. cbn [filter].
      destruct (is_record x) eqn:X; cbn [negb length]; [lia|].
      unfold is_record in X. unfold width at 1. destruct (snd (snd x)); [lia | discriminate].
Qed.
