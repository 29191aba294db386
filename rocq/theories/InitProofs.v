(** * Proofs about the initial conditions of a model *)
From Coq Require Import ZArith List Bool Arith Lia.
From Verif Require Import Result AccessModel InitModel InitSpec.
Import ListNotations.
Local Open Scope nat_scope.

Lemma map_res_total {A B} (f : A -> res B) l :
  (forall x, In x l -> exists y, f x = Ok y) ->
  exists ys, map_res f l = Ok ys /\ forall y, In y ys <-> exists x, In x l /\ f x = Ok y.
Proof.
  induction l as [|x l IH]; intros H.
  - exists []. split; [reflexivity|]. intros y. split; [intros []|intros (x & [] & _)].
  - destruct (H x (or_introl eq_refl)) as (y & E).
    destruct IH as (ys & M & J). { intros z Z. apply H. now right. }
    exists (y :: ys). split. { cbn. rewrite E. cbn. rewrite M. reflexivity. }
    intros z. split.
    + intros [<-|Z]. { exists x. split; [now left|exact E]. }
      apply J in Z as (w & W & F). exists w. split; [now right|exact F].
    + intros (w & [<-|W] & F). { left. congruence. }
      right. apply J. now exists w.
Qed.

(** ** Attributes *)

Lemma get_start_some l e : get_start l = Some e -> exists c, In (MStart c e) l.
Proof.
  induction l as [|a l IH]; [discriminate|]. destruct a; cbn; intros H;
    try (destruct (IH H) as (c & K); exists c; now right).
  injection H as <-. eexists. now left.
Qed.

Lemma get_start_none l : get_start l = None -> forall c e, ~ In (MStart c e) l.
Proof.
  induction l as [|a l IH]; cbn; intros H c e; [intros []|].
  destruct a; try discriminate; intros [K|K]; try discriminate; eapply IH; eauto.
Qed.

Lemma filter_none_in {A} (p : A -> bool) l : length (filter p l) = 0 -> forall x, In x l -> p x = false.
Proof.
  intros H x X. destruct (p x) eqn:E; [|reflexivity].
  assert (K : In x (filter p l)) by (apply filter_In; now split).
  destruct (filter p l); [destruct K|discriminate].
Qed.

Lemma get_start_in l c e : length (filter is_mstart l) <= 1 -> In (MStart c e) l -> get_start l = Some e.
Proof.
  induction l as [|a l IH]; intros L; [intros []|]. intros [->|K]; [reflexivity|].
  destruct a; cbn in *; try (now apply IH).
  exfalso. assert (N : length (filter is_mstart l) = 0) by lia.
  pose proof (filter_none_in _ _ N _ K). discriminate.
Qed.

Lemma start_unique l c e c' e' : length (filter is_mstart l) <= 1 ->
  In (MStart c e) l -> In (MStart c' e') l -> c = c' /\ e = e'.
Proof.
  induction l as [|a l IH]; intros L; [intros []|].
  intros [->|K] [J|J].
  - injection J as -> ->. auto.
  - exfalso. cbn in L. assert (N : length (filter is_mstart l) = 0) by lia.
    pose proof (filter_none_in _ _ N _ J). discriminate.
  - subst a. exfalso. cbn in L. assert (N : length (filter is_mstart l) = 0) by lia.
    pose proof (filter_none_in _ _ N _ K). discriminate.
  - apply IH; auto. cbn in L. destruct (is_mstart a); cbn in L; lia.
Qed.

Lemma fixed_unique l c f c' f' : length (filter is_mfixed l) <= 1 ->
  In (MFixed c f) l -> In (MFixed c' f') l -> c = c' /\ f = f'.
Proof.
  induction l as [|a l IH]; intros L; [intros []|].
  intros [->|K] [J|J].
  - injection J as -> ->. auto.
  - exfalso. cbn in L. assert (N : length (filter is_mfixed l) = 0) by lia.
    pose proof (filter_none_in _ _ N _ J). discriminate.
  - subst a. exfalso. cbn in L. assert (N : length (filter is_mfixed l) = 0) by lia.
    pose proof (filter_none_in _ _ N _ K). discriminate.
  - apply IH; auto. cbn in L. destruct (is_mfixed a); cbn in L; lia.
Qed.

Lemma fexp_ind' (P : fexp -> Prop) :
  (forall b, P (FLit b)) -> (forall b, P (FFill b)) -> P FOther ->
  (forall l, Forall P l -> P (FArr l)) -> forall f, P f.
Proof.
  intros HL HF HO HA. fix IH 1. intros [b|l|b|].
  - apply HL.
  - apply HA. induction l as [|x l IHl]; constructor; [apply IH|exact IHl].
  - apply HF.
  - exact HO.
Qed.

Lemma same_all b l : same_literals b (FArr l) <-> Forall (same_literals b) l.
Proof.
  cbn. induction l as [|x l IH]; [now split; constructor|].
  split. { intros (H & K). constructor; [exact H|]. apply IH. exact K. }
  intros H. inversion H; subst. split; [assumption|]. now apply IH.
Qed.

Lemma shaped_all n dims l : shaped (n :: dims) (FArr l) <-> Z.of_nat (length l) = n /\ (0 < n)%Z /\ Forall (shaped dims) l.
Proof.
  cbn. assert (E : forall l : list fexp, (fix all (l : list fexp) := match l with [] => True | x :: l' => shaped dims x /\ all l' end) l <-> Forall (shaped dims) l).
  { induction l0 as [|x l0 IH]; [now split; constructor|].
    split. { intros (H & K). constructor; [exact H|]. apply IH. exact K. }
    intros H. inversion H; subst. split; [assumption|]. now apply IH. }
  rewrite E. tauto.
Qed.

Lemma uniform_ok b f : forall dims, same_literals b f -> shaped dims f ->
  f = FLit b \/ exists l, f = FArr l /\ uniform f = Some b.
Proof.
  induction f as [c|c| |l IH] using fexp_ind'; intros dims H Sh; cbn in H; try contradiction.
  { left. now subst. }
  right. exists l. split; [reflexivity|].
  destruct dims as [|n dims]; [destruct Sh|].
  apply shaped_all in Sh as (L & N & A). fold (same_literals b (FArr l)) in H. apply same_all in H.
  assert (G : forall l last, Forall (fun f => forall dims, same_literals b f -> shaped dims f -> f = FLit b \/ exists l, f = FArr l /\ uniform f = Some b) l ->
    Forall (same_literals b) l -> Forall (shaped dims) l -> last = Some b \/ (last = None /\ l <> []) ->
    (fix go (l : list fexp) (last : option bool) : option bool :=
         match l with
         | [] => last
         | x :: l' =>
             match (match x with FArr _ => uniform x | FLit b => Some b | _ => None end) with
             | None => None
             | Some v =>
                 match last with
                 | None => go l' (Some v)
                 | Some w => if Bool.eqb w v then go l' (Some w) else None
                 end
             end
         end) l last = Some b).
  { clear. induction l as [|x l IHl]; intros last IH H A Q.
    - destruct Q as [->|(_ & Q)]; [reflexivity|congruence].
    - inversion IH; inversion H; inversion A; subst.
      assert (V : match x with FArr _ => uniform x | FLit b => Some b | _ => None end = Some b).
      { match goal with K : forall dims, same_literals b x -> _ |- _ => destruct (K dims) as [->|(l' & -> & U)] end; auto. }
      rewrite V. destruct Q as [->|(-> & _)].
      + rewrite Bool.eqb_reflx. apply IHl; auto.
      + apply IHl; auto. }
  cbn [uniform]. apply G; auto. right. split; [reflexivity|]. intros ->. cbn in L. lia.
Qed.

Lemma get_fixed_none l : (forall c f, ~ In (MFixed c f) l) -> get_fixed l = Ok (Some false).
Proof.
  induction l as [|a l IH]; intros H; [reflexivity|].
  assert (K : forall c f, ~ In (MFixed c f) l) by (intros c f J; apply (H c f); now right).
  destruct a; cbn; try (now apply IH). exfalso. apply (H each f). now left.
Qed.

Lemma get_fixed_in l c f b dims : length (filter is_mfixed l) <= 1 -> In (MFixed c f) l ->
  has_value f b -> shaped dims f -> get_fixed l = Ok (Some b).
Proof.
  intros L K V Sh. revert L K. induction l as [|a l IH]; intros L; [intros []|]. intros [->|K].
  - cbn [get_fixed]. destruct V as [->|V]; [reflexivity|].
    destruct (uniform_ok _ _ _ V Sh) as [->|(l' & -> & U)]; [reflexivity|]. rewrite U. reflexivity.
  - destruct a; cbn in *; try (now apply IH).
    exfalso. assert (N : length (filter is_mfixed l) = 0) by lia.
    pose proof (filter_none_in _ _ N _ K). discriminate.
Qed.

Lemma fixed_value b f : forall dims idx c, has_value f b -> shaped dims f -> in_dims dims idx ->
  (fixed_at f idx c <-> c = b).
Proof.
  intros dims idx c [->|H] Sh D.
  { split; [intros K; now inversion K|intros ->; constructor]. }
  revert dims idx c H Sh D. induction f as [d|d| |l IH] using fexp_ind'; intros dims idx c H Sh D; cbn in H; try contradiction.
  { subst d. split; [intros K; now inversion K|intros ->; constructor]. }
  destruct dims as [|n dims]; [destruct Sh|].
  apply shaped_all in Sh as (L & N & A). fold (same_literals b (FArr l)) in H. apply same_all in H.
  inversion D as [|? i ? idx' Hi Dx]; subst.
  assert (X : exists x, nth_error l (Z.to_nat i) = Some x).
  { destruct (nth_error l (Z.to_nat i)) eqn:E; [eauto|]. apply nth_error_None in E. lia. }
  destruct X as (x & X). pose proof (nth_error_In _ _ X) as I.
  rewrite Forall_forall in IH, H, A. specialize (IH x I dims idx' c (H x I) (A x I) Dx).
  split.
  - intros K. inversion K; subst. rewrite X in *. match goal with J : Some _ = Some _ |- _ => injection J as -> end. now apply IH.
  - intros ->. econstructor; [exact X|]. now apply IH.
Qed.

(** ** Variables *)

Lemma last_all idx : last_subscripts (length idx) idx = idx.
Proof. unfold last_subscripts. now rewrite Nat.sub_diag. Qed.

Lemma in_dims_length dims idx : in_dims dims idx -> length idx = length dims.
Proof. induction 1; cbn; congruence. Qed.

(** Whether a variable is fixed, and what the lowering finds. *)
Lemma lower_ok v : legal_var v -> accepted_var v ->
  exists b, lower_attributes v = Ok match get_start (v_mods v) with
      | None => []
      | Some e => [{| s_var := v_name v; s_fixed := b; s_each := get_each (v_mods v); s_implicit := false; s_exp := e |}] end /\
    (b = true -> (v_readonly v = true -> v_binding v = None)) /\
    (b = true -> exists e, get_start (v_mods v) = Some e) /\
    forall idx, in_dims (v_dims v) idx -> (is_fixed v idx <-> b = true).
Proof.
  intros (L1 & L2 & RB & R1 & R2 & S1 & S2) (A1 & A2). unfold lower_attributes.
  destruct (existsb is_mfixed (v_mods v)) eqn:X.
  - apply existsb_exists in X as (a & I & T). destruct a as [|c f| |]; try discriminate.
    destruct (A1 c f I) as (b & V & W). exists b.
    assert (G : get_fixed (v_mods v) = Ok (Some b)).
    { destruct c; eapply get_fixed_in; eauto. }
    split. { destruct (get_start (v_mods v)); [|reflexivity]. rewrite G. reflexivity. }
    split. { intros B. now destruct (W B). }
    split. { intros B. destruct (W B) as ((c' & e & K) & _). exists e. eapply get_start_in; eauto. }
    intros idx D. unfold is_fixed. split.
    + intros [(f' & J & F)|[(f' & J & F)|(N & _)]].
      * destruct (fixed_unique _ _ _ _ _ L2 I J) as (-> & ->). symmetry. eapply fixed_value; eauto.
      * destruct (fixed_unique _ _ _ _ _ L2 I J) as (-> & ->). symmetry. eapply (fixed_value b f' [] []); eauto. constructor.
      * exfalso. eapply N; eauto.
    + intros ->. destruct c.
      * right. left. exists f. split; [exact I|]. eapply (fixed_value true f [] []); eauto. constructor.
      * left. exists f. split; [exact I|]. eapply fixed_value; eauto.
  - assert (N : forall c f, ~ In (MFixed c f) (v_mods v)).
    { intros c f I. enough (existsb is_mfixed (v_mods v) = true) by congruence. apply existsb_exists. now exists (MFixed c f). }
    exists false. rewrite (get_fixed_none _ N).
    split. { destruct (get_start (v_mods v)); reflexivity. }
    split; [discriminate|]. split; [discriminate|].
    intros idx D. split; [|discriminate].
    intros [(f & J & _)|[(f & J & _)|(_ & R & B)]]; try (exfalso; eapply N; eassumption).
    destruct (A2 R B) as (c & f & J). exfalso. eapply N; eauto.
Qed.

Lemma start_value_get v m idx z e : legal_var v -> in_dims (v_dims v) idx -> get_start (v_mods v) = Some e ->
  (start_value v m idx z <-> z = ie_val e m (last_subscripts (ie_rank e) idx)).
Proof.
  intros (L1 & _ & _ & R1 & R2 & _) D G. pose proof (in_dims_length _ _ D) as Len.
  destruct (get_start_some _ _ G) as (c & I).
  unfold start_value. split.
  - intros [(e' & J & ->)|[(e' & J & ->)|(N & _)]].
    + destruct (start_unique _ _ _ _ _ L1 I J) as (-> & ->). rewrite (R1 _ J), <- Len, last_all. reflexivity.
    + destruct (start_unique _ _ _ _ _ L1 I J) as (-> & ->). reflexivity.
    + exfalso. eapply N; eauto.
  - intros ->. destruct c.
    + right. left. eauto.
    + left. exists e. split; [exact I|]. rewrite (R1 _ I), <- Len, last_all. reflexivity.
Qed.

Lemma find_var_in vars v : NoDup (map v_name vars) -> In v vars -> find_var vars (v_name v) = Some v.
Proof.
  induction vars as [|w vars IH]; intros ND; [intros []|]. inversion ND as [|? ? NI ND']; subst.
  intros [->|I]; unfold find_var; cbn.
  - now rewrite Nat.eqb_refl.
  - destruct (Nat.eqb_spec (v_name w) (v_name v)) as [E|E]; [|now apply IH].
    exfalso. apply NI. rewrite E. now apply in_map.
Qed.

Lemma in_add_starts vars ss s : In s (add_starts vars ss) <->
  In s ss \/ exists v, In v vars /\ (forall t, In t ss -> s_var t <> v_name v) /\
    s = {| s_var := v_name v; s_fixed := false; s_each := false; s_implicit := true; s_exp := zero_exp |}.
Proof.
  unfold add_starts. rewrite in_app_iff, in_map_iff. apply or_iff_compat_l. split.
  - intros (v & <- & F). apply filter_In in F as (I & N). exists v. repeat split; auto.
    intros t T E. apply negb_true_iff in N. enough (existsb (fun s => Nat.eqb (s_var s) (v_name v)) ss = true) by congruence.
    apply existsb_exists. exists t. split; [exact T|]. now apply Nat.eqb_eq.
  - intros (v & I & N & ->). exists v. split; [reflexivity|]. apply filter_In. split; [exact I|].
    apply negb_true_iff. destruct (existsb (fun s => Nat.eqb (s_var s) (v_name v)) ss) eqn:X; [|reflexivity].
    apply existsb_exists in X as (t & T & E). apply Nat.eqb_eq in E. exfalso. now apply (N t).
Qed.

(** ** The system *)

Lemma system_ok vars main initial :
  legal_vars vars -> Forall accepted_var vars ->
  exists s, initial_system vars main initial = Ok s /\
    (forall m, system_holds s m <-> initially vars main initial m) /\
    (forall g, In g (is_guesses s) <-> exists v e, In v vars /\ get_start (v_mods v) = Some e /\
        (forall b, get_fixed (v_mods v) = Ok (Some b) -> b = false) /\
        g = {| s_var := v_name v; s_fixed := false; s_each := get_each (v_mods v); s_implicit := false; s_exp := e |}).
Proof.
  intros (ND & L) A. rewrite Forall_forall in L, A.
  destruct (map_res_total lower_attributes vars) as (ats & E1 & I1).
  { intros v V. destruct (lower_ok v (L v V) (A v V)) as (b & E & _). eauto. }
  destruct (map_res_total binding_equations vars) as (bs & E2 & I2).
  { intros v V. unfold binding_equations. destruct (L v V) as (_ & _ & RB & _).
    destruct (v_binding v) as [e|]; [|eauto]. destruct (v_readonly v); [eauto|].
    rewrite (RB e eq_refl), Nat.eqb_refl. cbn. eauto. }
  set (ss := add_starts vars (flat_map binding_starts vars ++ concat ats)).
  (* The start operations that are not implicit. *)
  assert (IS : forall s, s_implicit s = false -> In s ss <-> exists v, In v vars /\ (In s (binding_starts v) \/ exists y, lower_attributes v = Ok y /\ In s y)).
  { intros s Im. unfold ss. rewrite in_add_starts, in_app_iff, in_flat_map, in_concat. split.
    - intros [[(v & V & J)|(y & Y & J)]|(v & _ & _ & ->)]; [|apply I1 in Y as (v & V & Y)|discriminate]; exists v; split; eauto.
    - intros (v & V & [J|(y & Y & J)]); left; [left; eauto|]. right. exists y. split; [apply I1; eauto|exact J]. }
  assert (IM : forall s, In s ss -> s_implicit s = true -> s_fixed s = false).
  { intros s J Im. unfold ss in J. rewrite in_add_starts, in_app_iff, in_flat_map, in_concat in J.
    destruct J as [[(v & V & J)|(y & Y & J)]|(v & _ & _ & ->)]; [| |reflexivity].
    - unfold binding_starts in J. destruct (v_binding v); [|destruct J]. destruct (v_readonly v); [|destruct J].
      destruct J as [<-|[]]. discriminate.
    - apply I1 in Y as (v & V & Y). destruct (lower_ok v (L v V) (A v V)) as (b & E & _). rewrite E in Y. injection Y as <-.
      destruct (get_start (v_mods v)); [|destruct J]. destruct J as [<-|[]]. discriminate. }
  (* The equation of a fixed start operation. *)
  assert (SE : forall s, In s (filter s_fixed ss) -> exists v, In v vars /\ s_var s = v_name v /\
     ((v_readonly v = true /\ v_binding v = Some (s_exp s)) \/ get_start (v_mods v) = Some (s_exp s)) /\
     start_equation vars s = Ok (EAssign (v_name v) (v_dims v) (ie_rank (s_exp s)) (s_exp s))).
  { intros s J. apply filter_In in J as (J & F).
    assert (Im : s_implicit s = false). { destruct (s_implicit s) eqn:X; [|reflexivity]. rewrite (IM s J X) in F. discriminate. }
    apply IS in J as (v & V & J); [|exact Im]. exists v. split; [exact V|].
    assert (K : s_var s = v_name v /\ ((v_readonly v = true /\ v_binding v = Some (s_exp s)) \/ get_start (v_mods v) = Some (s_exp s))).
    { destruct J as [J|(y & Y & J)].
      - unfold binding_starts in J. destruct (v_binding v); [|destruct J]. destruct (v_readonly v); [|destruct J].
        destruct J as [<-|[]]. cbn. auto.
      - destruct (lower_ok v (L v V) (A v V)) as (b & E & _). rewrite E in Y. injection Y as <-.
        destruct (get_start (v_mods v)); [|destruct J]. destruct J as [<-|[]]. cbn. auto. }
    destruct K as (K1 & K2). split; [exact K1|]. split; [exact K2|].
    unfold start_equation. rewrite K1, (find_var_in _ _ ND V). cbn [of_option bind].
    destruct (L v V) as (_ & _ & RB & R1 & R2 & _).
    assert (R : ie_rank (s_exp s) <= length (v_dims v)).
    { destruct K2 as [(_ & K2)|K2]; [rewrite (RB _ K2); lia|].
      destruct (get_start_some _ _ K2) as ([|] & I); [now apply R2|rewrite (R1 _ I); lia]. }
    apply Nat.leb_le in R. rewrite R. reflexivity. }
  destruct (map_res_total (start_equation vars) (filter s_fixed ss)) as (ses & E3 & I3).
  { intros s J. destruct (SE s J) as (v & _ & _ & _ & E). eauto. }
  eexists. split. { unfold initial_system. rewrite E1. cbn [bind]. rewrite E2. cbn [bind]. fold ss. rewrite E3. cbn [bind]. reflexivity. }
  split.
  - (* Equations *)
    intros m. unfold system_holds, initially. cbn [is_equations]. split.
    + intros H. split; [|split].
      * intros p P. apply (H (EGiven p)). rewrite !in_app_iff. left. now apply in_map.
      * intros p P. apply (H (EGiven p)). rewrite !in_app_iff. right. left. now apply in_map.
      * intros v idx V D. destruct (L v V) as (_ & _ & RB & _). pose proof (in_dims_length _ _ D) as Len. split.
        -- intros e B. specialize (RB e B). destruct (v_readonly v) eqn:R.
           ++ set (s := {| s_var := v_name v; s_fixed := true; s_each := false; s_implicit := false; s_exp := e |}).
              assert (J : In s (filter s_fixed ss)).
              { apply filter_In. split; [|reflexivity]. apply IS; [reflexivity|]. exists v. split; [exact V|]. left.
                unfold binding_starts. rewrite B, R. now left. }
              destruct (SE s J) as (w & W & N & _ & Q). cbn in N, Q.
              assert (w = v). { pose proof (find_var_in _ _ ND W) as F1. pose proof (find_var_in _ _ ND V) as F2. rewrite N in F2. congruence. }
              subst w.
              assert (G : equation_holds m (EAssign (v_name v) (v_dims v) (ie_rank e) e)).
              { apply H. rewrite !in_app_iff. right. right. right. apply I3. eauto. }
              cbn in G. rewrite (G idx D), RB, <- Len, last_all. reflexivity.
           ++ assert (G : equation_holds m (EAssign (v_name v) (v_dims v) (length (v_dims v)) e)).
              { apply H. rewrite !in_app_iff. right. right. left. apply in_concat. eexists. split.
                - apply I2. exists v. split; [exact V|]. unfold binding_equations. rewrite B, R, RB, Nat.eqb_refl. reflexivity.
                - now left. }
              cbn in G. rewrite (G idx D), <- Len, last_all. reflexivity.
        -- intros F _ z Z. destruct (lower_ok v (L v V) (A v V)) as (b & E & _ & BS & BF).
           apply (BF idx D) in F. subst b. destruct (BS eq_refl) as (e & G). rewrite G in E.
           apply (start_value_get v m idx z e (L v V) D G) in Z. subst z.
           set (s := {| s_var := v_name v; s_fixed := true; s_each := get_each (v_mods v); s_implicit := false; s_exp := e |}) in *.
           assert (J : In s (filter s_fixed ss)).
           { apply filter_In. split; [|reflexivity]. apply IS; [reflexivity|]. exists v. split; [exact V|]. right. eexists. split; [exact E|]. now left. }
           destruct (SE s J) as (w & W & N & _ & Q). cbn in N, Q.
           assert (w = v). { pose proof (find_var_in _ _ ND W) as F1. pose proof (find_var_in _ _ ND V) as F2. rewrite N in F2. congruence. }
           subst w.
           assert (G2 : equation_holds m (EAssign (v_name v) (v_dims v) (ie_rank e) e)).
           { apply H. rewrite !in_app_iff. right. right. right. apply I3. eauto. }
           exact (G2 idx D).
    + intros (H1 & H2 & H3) q Q. rewrite !in_app_iff in Q. destruct Q as [Q|[Q|[Q|Q]]].
      * apply in_map_iff in Q as (p & <- & P). now apply H1.
      * apply in_map_iff in Q as (p & <- & P). now apply H2.
      * apply in_concat in Q as (y & Y & J). apply I2 in Y as (v & V & Y). unfold binding_equations in Y.
        destruct (v_binding v) as [e|] eqn:B; [|injection Y as <-; destruct J].
        destruct (v_readonly v); [injection Y as <-; destruct J|].
        destruct (Nat.eqb (ie_rank e) (length (v_dims v))); [|discriminate]. cbn in Y. injection Y as <-.
        destruct J as [<-|[]]. cbn. intros idx D. rewrite <- (in_dims_length _ _ D), last_all.
        destruct (H3 v idx V D) as (K & _). now apply K.
      * apply I3 in Q as (s & J & Q). destruct (SE s J) as (v & V & N & K & Q'). rewrite Q' in Q. injection Q as <-.
        cbn. intros idx D. destruct (H3 v idx V D) as (KB & KF).
        destruct (L v V) as (_ & _ & RB & _).
        apply filter_In in J as (J & F).
        assert (Im : s_implicit s = false). { destruct (s_implicit s) eqn:X; [|reflexivity]. rewrite (IM s J X) in F. discriminate. }
        apply IS in J as (w & W & J); [|exact Im].
        assert (w = v).
        { assert (NW : s_var s = v_name w).
          { destruct J as [J|(y & Y & J)].
            - unfold binding_starts in J. destruct (v_binding w); [|destruct J]. destruct (v_readonly w); [|destruct J].
              destruct J as [<-|[]]. reflexivity.
            - destruct (lower_ok w (L w W) (A w W)) as (b & E & _). rewrite E in Y. injection Y as <-.
              destruct (get_start (v_mods w)); [|destruct J]. destruct J as [<-|[]]. reflexivity. }
          pose proof (find_var_in _ _ ND W) as F1. pose proof (find_var_in _ _ ND V) as F2. rewrite <- NW, N in F1. congruence. }
        subst w. destruct J as [J|(y & Y & J)].
        -- unfold binding_starts in J. destruct (v_binding v) as [e|]; [|destruct J]. destruct (v_readonly v); [|destruct J].
           destruct J as [<-|[]]. cbn. rewrite (RB e eq_refl), <- (in_dims_length _ _ D), last_all. now apply KB.
        -- destruct (lower_ok v (L v V) (A v V)) as (b & E & NB & _ & BF). rewrite E in Y. injection Y as <-.
           destruct (get_start (v_mods v)) as [e|] eqn:G; [|destruct J]. destruct J as [<-|[]]. cbn in F. subst b. cbn.
           apply KF. { now apply BF. } { now apply NB. } now apply (start_value_get v m idx _ e (L v V) D G).
  - (* Guesses *)
    intros g. cbn [is_guesses]. rewrite filter_In, andb_true_iff, !negb_true_iff. split.
    + intros (J & F & Im). apply IS in J as (v & V & [J|(y & Y & J)]); [| |exact Im].
      * exfalso. unfold binding_starts in J. destruct (v_binding v); [|destruct J]. destruct (v_readonly v); [|destruct J].
        destruct J as [<-|[]]. discriminate.
      * destruct (lower_ok v (L v V) (A v V)) as (b & E & _). exists v. rewrite E in Y. injection Y as <-.
        destruct (get_start (v_mods v)) as [e|] eqn:G; [|destruct J]. destruct J as [<-|[]]. exists e. cbn in F. subst b.
        split; [exact V|]. split; [reflexivity|]. split; [|reflexivity].
        intros b GF. unfold lower_attributes in E. rewrite G, GF in E. cbn in E. now injection E as ->.
    + intros (v & e & V & G & F & ->). split; [|split; reflexivity].
      apply IS; [reflexivity|]. exists v. split; [exact V|]. right.
      destruct (lower_ok v (L v V) (A v V)) as (b & E & _).
      exists [{| s_var := v_name v; s_fixed := false; s_each := get_each (v_mods v); s_implicit := false; s_exp := e |}].
      split; [|now left]. rewrite E, G. 
      assert (b = false) as ->; [|reflexivity].
      unfold lower_attributes in E. rewrite G in E. destruct (get_fixed (v_mods v)) as [o| |] eqn:GF; try discriminate. cbn in E.
      destruct o as [b'|]; [|discriminate]. cbn in E. injection E as E. rewrite <- E. now apply F.
Qed.

Lemma guess_written vars main initial s :
  legal_vars vars -> Forall accepted_var vars -> initial_system vars main initial = Ok s ->
  forall x e, (exists g, In g (is_guesses s) /\ s_var g = x /\ s_exp g = e) <->
    exists v c, In v vars /\ v_name v = x /\ In (MStart c e) (v_mods v) /\
      forall c' f, In (MFixed c' f) (v_mods v) -> has_value f false.
Proof.
  intros L A E x e. destruct (system_ok vars main initial L A) as (s' & E' & _ & G). rewrite E' in E. injection E as ->.
  destruct L as (_ & L). rewrite Forall_forall in L, A.
  assert (FX : forall v, In v vars -> (forall b, get_fixed (v_mods v) = Ok (Some b) -> b = false) <-> (forall c' f, In (MFixed c' f) (v_mods v) -> has_value f false)).
  { intros v V. destruct (L v V) as (_ & L2 & _ & _ & _ & S1 & S2). destruct (A v V) as (A1 & _).
    assert (K : forall c f b, In (MFixed c f) (v_mods v) -> has_value f b -> get_fixed (v_mods v) = Ok (Some b)).
    { intros c f b I W. destruct c; eapply get_fixed_in; eauto. }
    split.
    - intros H c f I. destruct (A1 c f I) as (b & W & _). rewrite (H b (K c f b I W)) in W. exact W.
    - intros H b B. destruct (existsb is_mfixed (v_mods v)) eqn:X.
      + apply existsb_exists in X as (a & I & T). destruct a as [|c f| |]; try discriminate.
        rewrite (K c f false I (H c f I)) in B. congruence.
      + rewrite get_fixed_none in B; [congruence|]. intros c f I.
        enough (existsb is_mfixed (v_mods v) = true) by congruence. apply existsb_exists. now exists (MFixed c f). }
  split.
  - intros (g & I & <- & <-). apply G in I as (v & e' & V & S & F & ->). destruct (get_start_some _ _ S) as (c & C).
    exists v, c. cbn. repeat split; auto. now apply FX.
  - intros (v & c & V & <- & C & F). destruct (L v V) as (L1 & _).
    eexists. split; [apply G; exists v, e; split; [exact V|]; split; [eapply get_start_in; eauto|]; split; [now apply FX|reflexivity]|]. auto.
Qed.

(** ** Refutations *)

Definition const_exp (z : Z) : iexp := {| ie_rank := 0; ie_val := fun _ _ => z |}.

Lemma zero_index dims : Forall (fun n => (0 < n)%Z) dims -> in_dims dims (map (fun _ => 0%Z) dims).
Proof. induction 1; constructor; [lia|assumption]. Qed.

Lemma mixed_uniform l : Forall (fun f => f = FLit true \/ f = FLit false) l -> In (FLit true) l -> In (FLit false) l ->
  uniform (FArr l) = None.
Proof.
  intros A.
  assert (G : forall last, (last = Some true /\ In (FLit false) l) \/ (last = Some false /\ In (FLit true) l) \/ (last = None /\ In (FLit true) l /\ In (FLit false) l) ->
    (fix go (l : list fexp) (last : option bool) : option bool :=
         match l with
         | [] => last
         | x :: l' =>
             match (match x with FArr _ => uniform x | FLit b => Some b | _ => None end) with
             | None => None
             | Some v =>
                 match last with
                 | None => go l' (Some v)
                 | Some w => if Bool.eqb w v then go l' (Some w) else None
                 end
             end
         end) l last = None).
  { induction A as [|x l X A IH]; intros last Q.
    - destruct Q as [(_ & [])|[(_ & [])|(_ & [] & _)]].
    - destruct X as [->| ->]; destruct Q as [(-> & Q)|[(-> & Q)|(-> & Q1 & Q2)]]; cbn [Bool.eqb]; try reflexivity.
      + destruct Q as [Q|Q]; [discriminate|]. apply IH. auto.
      + destruct Q2 as [Q|Q]; [discriminate|]. apply IH. auto.
      + destruct Q as [Q|Q]; [discriminate|]. apply IH. auto.
      + destruct Q1 as [Q|Q]; [discriminate|]. apply IH. auto. }
  intros T F. cbn [uniform]. apply G. auto.
Qed.

(** ** The number of equations *)

Lemma filter_nothing {A} (p : A -> bool) l : (forall a, In a l -> p a = false) -> filter p l = [].
Proof.
  induction l as [|a l IH]; intros H; [reflexivity|]. cbn. rewrite (H a (or_introl eq_refl)). apply IH. intros b B. apply H. now right.
Qed.

Lemma filter_flat_map {A B} (p : B -> bool) (g : A -> list B) l : filter p (flat_map g l) = flat_map (fun a => filter p (g a)) l.
Proof. induction l as [|a l IH]; [reflexivity|]. cbn. now rewrite filter_app, IH. Qed.

Lemma flat_map_one {A} (p : A -> bool) (g : ivar -> list A) vars v :
  NoDup (map v_name vars) -> In v vars ->
  (forall w a, In w vars -> In a (g w) -> p a = true -> v_name w = v_name v) ->
  filter p (flat_map g vars) = filter p (g v).
Proof.
  intros ND. induction vars as [|w vars IH]; [intros []|]. inversion ND as [|? ? NI ND']; subst. intros I H. cbn. rewrite filter_app.
  destruct I as [->|I].
  - rewrite (filter_nothing p (flat_map g vars)); [apply app_nil_r|].
    intros a J. apply in_flat_map in J as (u & U & J). destruct (p a) eqn:P; [|reflexivity].
    exfalso. apply NI. rewrite <- (H u a (or_intror U) J P). now apply in_map.
  - rewrite (filter_nothing p (g w)).
    + cbn. apply IH; auto. intros u a U. apply H. now right.
    + intros a J. destruct (p a) eqn:P; [|reflexivity]. exfalso. apply NI. rewrite (H w a (or_introl eq_refl) J P). now apply in_map.
Qed.

Definition ok_or_nil {A} (r : res (list A)) : list A := match r with Ok y => y | _ => [] end.

Lemma concat_map_res {A B} (f : A -> res (list B)) l ys : map_res f l = Ok ys -> concat ys = flat_map (fun x => ok_or_nil (f x)) l.
Proof.
  revert ys. induction l as [|x l IH]; cbn; intros ys H; [now injection H as <-|].
  destruct (f x) as [y| |]; try discriminate. cbn in H. destruct (map_res f l) as [ys'| |]; try discriminate. injection H as <-.
  cbn. now rewrite (IH ys').
Qed.

Lemma count_starts vars x l ys : map_res (start_equation vars) l = Ok ys ->
  length (filter (fun e => match e with EAssign y _ _ _ => Nat.eqb y x | EGiven _ => false end) ys) =
  length (filter (fun s => Nat.eqb (s_var s) x) l).
Proof.
  revert ys. induction l as [|s l IH]; cbn; intros ys H; [now injection H as <-|].
  destruct (start_equation vars s) as [e| |] eqn:E; try discriminate. cbn in H.
  destruct (map_res (start_equation vars) l) as [ys'| |]; try discriminate. injection H as <-. cbn.
  unfold start_equation in E. destruct (find_var vars (s_var s)) as [v|] eqn:F; [|discriminate]. cbn in E.
  destruct (Nat.leb _ _); [|discriminate]. cbn in E. injection E as <-.
  unfold find_var in F. apply find_some in F as (_ & F). apply Nat.eqb_eq in F. rewrite <- F.
  destruct (Nat.eqb (v_name v) x); cbn; now rewrite (IH ys').
Qed.

Lemma filter_filter {A} (p q : A -> bool) l : filter p (filter q l) = filter (fun a => p a && q a) l.
Proof. induction l as [|a l IH]; [reflexivity|]. cbn. destruct (q a) eqn:Q; cbn; rewrite IH; destruct (p a); reflexivity. Qed.

Lemma count_ok vars main initial s v :
  legal_vars vars -> Forall accepted_var vars -> initial_system vars main initial = Ok s -> In v vars ->
  exists b, (b = 1 <-> exists c f, In (MFixed c f) (v_mods v) /\ has_value f true) /\ b <= 1 /\
  length (filter (fun e => match e with EAssign y _ _ _ => Nat.eqb y (v_name v) | EGiven _ => false end) (is_equations s)) =
    (if v_binding v then 1 else 0) + b.
Proof.
  intros (ND & L) A E V. rewrite Forall_forall in L, A. unfold initial_system in E.
  destruct (map_res lower_attributes vars) as [ats| |] eqn:E1; try discriminate. cbn [bind] in E.
  destruct (map_res binding_equations vars) as [bs| |] eqn:E2; try discriminate. cbn [bind] in E.
  set (ss := add_starts vars (flat_map binding_starts vars ++ concat ats)) in *.
  destruct (map_res (start_equation vars) (filter s_fixed ss)) as [ses| |] eqn:E3; try discriminate. cbn [bind] in E.
  injection E as <-. cbn [is_equations].
  rewrite !filter_app, !app_length, (count_starts _ _ _ _ E3).
  rewrite !(filter_nothing _ (map EGiven _)) by (intros e J; apply in_map_iff in J as (p & <- & _); reflexivity).
  rewrite (concat_map_res _ _ _ E2), (flat_map_one _ _ _ v ND V).
  2:{ intros w a W J P. destruct a as [|y d r e]; [discriminate|]. apply Nat.eqb_eq in P. subst y.
      unfold binding_equations in J. destruct (v_binding w); [|destruct J]. destruct (v_readonly w); [destruct J|].
      destruct (Nat.eqb _ _); [|destruct J]. destruct J as [J|[]]. congruence. }
  rewrite filter_filter. unfold ss, add_starts. rewrite !filter_app, !app_length.
  rewrite (filter_nothing _ (map _ (filter _ vars))).
  2:{ intros t J. apply in_map_iff in J as (w & <- & _). apply andb_false_r. }
  rewrite (flat_map_one _ _ _ v ND V).
  2:{ intros w t W J P. apply andb_true_iff in P as (P & _). apply Nat.eqb_eq in P. rewrite <- P.
      unfold binding_starts in J. destruct (v_binding w); [|destruct J]. destruct (v_readonly w); [|destruct J].
      destruct J as [<-|[]]. reflexivity. }
  rewrite (concat_map_res _ _ _ E1), (flat_map_one _ _ _ v ND V).
  2:{ intros w t W J P. apply andb_true_iff in P as (P & _). apply Nat.eqb_eq in P. rewrite <- P.
      destruct (lower_ok w (L w W) (A w W)) as (b & Q & _). rewrite Q in J. cbn in J.
      destruct (get_start (v_mods w)); [|destruct J]. destruct J as [<-|[]]. reflexivity. }
  destruct (lower_ok v (L v V) (A v V)) as (b & Q & _ & BS & _).
  assert (FX : b = true <-> exists c f, In (MFixed c f) (v_mods v) /\ has_value f true).
  { destruct (L v V) as (L1 & L2 & _ & _ & _ & S1 & S2). destruct (A v V) as (A1 & _).
    assert (K : forall c f b, In (MFixed c f) (v_mods v) -> has_value f b -> get_fixed (v_mods v) = Ok (Some b)).
    { intros c f d I W. destruct c; eapply get_fixed_in; eauto. }
    split.
    - intros ->. destruct (BS eq_refl) as (e & G). unfold lower_attributes in Q. rewrite G in Q.
      destruct (existsb is_mfixed (v_mods v)) eqn:X.
      + apply existsb_exists in X as (a & I & T). destruct a as [|c f| |]; try discriminate.
        destruct (A1 c f I) as (b & W & _). rewrite (K c f b I W) in Q. cbn in Q. injection Q as ->. eauto.
      + rewrite get_fixed_none in Q; [discriminate|]. intros c f I.
        enough (existsb is_mfixed (v_mods v) = true) by congruence. apply existsb_exists. now exists (MFixed c f).
    - intros (c & f & I & W). destruct (A1 c f I) as (d & W' & HS).
      assert (d = true). { pose proof (K c f d I W') as K1. rewrite (K c f true I W) in K1. congruence. }
      subst d. destruct (HS eq_refl) as ((c' & e & J) & _). unfold lower_attributes in Q.
      rewrite (get_start_in _ _ _ L1 J), (K c f true I W) in Q. cbn in Q. now injection Q as ->. }
  exists (if b then 1 else 0). split; [|split; [destruct b; lia|]].
  { rewrite <- FX. destruct b; split; auto; discriminate. }
  rewrite Q. cbn [ok_or_nil]. unfold binding_equations, binding_starts. destruct (L v V) as (_ & _ & RB & _).
  assert (SB : length (filter (fun a => Nat.eqb (s_var a) (v_name v) && s_fixed a)
      match get_start (v_mods v) with
      | Some e => [{| s_var := v_name v; s_fixed := b; s_each := get_each (v_mods v); s_implicit := false; s_exp := e |}]
      | None => [] end) = if b then 1 else 0).
  { destruct (get_start (v_mods v)) as [e|] eqn:G.
    - cbn. rewrite Nat.eqb_refl. now destruct b.
    - destruct b; [|reflexivity]. destruct (BS eq_refl) as (e & K). discriminate. }
  rewrite SB. destruct (v_binding v) as [e|]; [|cbn; lia]. destruct (v_readonly v).
  - cbn. rewrite Nat.eqb_refl. cbn. lia.
  - rewrite (RB e eq_refl), Nat.eqb_refl. cbn. rewrite Nat.eqb_refl. cbn. lia.
Qed.
