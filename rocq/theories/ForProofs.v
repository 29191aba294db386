(** * Proofs about the lowering of equations *)
From Coq Require Import ZArith NArith List Bool Arith Lia.
From Verif Require Import RangeModel MDRangeModel Spec Result AccessModel RTreeModel IndexSetModel IndexSetSpec
  IndexSetProofs IndexSetHistProofs ForModel ForSpec.
Import ListNotations.
Local Open Scope nat_scope.

Section SOLUTION.
Context {E : Type} (M : solution E).

Definition says_all (R : val E -> val E -> Prop) (rho : scope) : list sequ -> Prop :=
  fix all (l : list sequ) : Prop := match l with [] => True | x :: l' => says R M rho x /\ all l' end.
Lemma says_for : forall R rho is body, says R M rho (SFor is body) <-> for_all M is rho (fun r => says_all R r body).
Proof. reflexivity. Qed.
Lemma says_all_in : forall R rho l, says_all R rho l <-> forall e, In e l -> says R M rho e.
Proof.
  intros R rho l. induction l as [|x l IH]; cbn; [split; [intros _ e []|auto]|]. rewrite IH. split.
  - intros [A B] e [<-|K]; auto.
  - intros H. split; [apply H; auto|intros e K; apply H; auto].
Qed.

(** ** The operations between the source and the templates *)
Definition fvals (f : fop) (v : Z) : Prop :=
  exists k : nat, v = (fo_from f + Z.of_nat k * fo_step f)%Z /\
    ((0 < fo_step f)%Z /\ (v <= fo_to f)%Z \/ (fo_step f < 0)%Z /\ (fo_to f <= v)%Z).

Fixpoint isat (R : val E -> val E -> Prop) (p : list Z) (e : ieq) : Prop :=
  match e with
  | IEq l r => Forall2 R (map (lval M p) l) (map (lval M p) r)
  | IFor f body => forall v, fvals f v -> (fix all (l : list ieq) : Prop :=
        match l with [] => True | x :: l' => isat R (p ++ [v]) x /\ all l' end) body
  end.
Definition isat_all (R : val E -> val E -> Prop) (p : list Z) : list ieq -> Prop :=
  fix all (l : list ieq) : Prop := match l with [] => True | x :: l' => isat R p x /\ all l' end.
Lemma isat_for : forall R p f body, isat R p (IFor f body) <-> forall v, fvals f v -> isat_all R (p ++ [v]) body.
Proof. reflexivity. Qed.
Lemma isat_all_app : forall R p a b, isat_all R p (a ++ b) <-> isat_all R p a /\ isat_all R p b.
Proof. intros R p a b. induction a as [|x a IH]; cbn; [tauto|]. rewrite IH. tauto. Qed.
Lemma isat_all_in : forall R p l, isat_all R p l <-> forall e, In e l -> isat R p e.
Proof.
  intros R p l. induction l as [|x l IH]; cbn; [split; [intros _ e []|auto]|]. rewrite IH. split.
  - intros [A B] e [<-|K]; auto.
  - intros H. split; [apply H; auto|intros e K; apply H; auto].
Qed.

(** ** Lowering *)
Definition scope_of (env : list nat) (p : list Z) : scope :=
  fun x => match last_place x env with Some k => Some (nth k p 0%Z) | None => None end.
Lemma last_place_lt : forall x env k, last_place x env = Some k -> k < length env.
Proof.
  intros x env. induction env as [|y env IH]; intros k K; cbn in K; [discriminate|].
  destruct (last_place x env) as [j|].
  - injection K as <-. specialize (IH j eq_refl). cbn. lia.
  - destruct (Nat.eqb x y); [injection K as <-; cbn; lia|discriminate].
Qed.
Lemma last_place_snoc : forall x env y,
  last_place x (env ++ [y]) = if Nat.eqb x y then Some (length env) else last_place x env.
Proof.
  intros x env y. induction env as [|z env IH]; cbn.
  - destruct (Nat.eqb x y); reflexivity.
  - rewrite IH. destruct (Nat.eqb x y); reflexivity.
Qed.
Lemma scope_snoc : forall env p y v, length p = length env ->
  forall x, scope_of (env ++ [y]) (p ++ [v]) x = bound_to (scope_of env p) y v x.
Proof.
  intros env p y v L x. unfold scope_of, bound_to. rewrite last_place_snoc. destruct (Nat.eqb x y) eqn:K.
  - rewrite app_nth2 by lia. rewrite L, Nat.sub_diag. reflexivity.
  - destruct (last_place x env) as [k|] eqn:K2; [|reflexivity]. apply last_place_lt in K2. rewrite app_nth1 by lia. reflexivity.
Qed.

Lemma sexp_ind' : forall P : sexp -> Prop, (forall z, P (SNum z)) -> (forall x, P (SName x)) ->
  (forall o l, Forall P l -> P (SApp o l)) -> forall e, P e.
Proof.
  intros P H1 H2 H3. fix IH 1. intros [z|x|o l]; [apply H1|apply H2|apply H3]. induction l; constructor; auto.
Qed.
Lemma lower_exp_val : forall env p rho, (forall x, scope_of env p x = rho x) ->
  forall e, lval M p (lower_exp env e) = sval M rho e.
Proof.
  intros env p rho H e. induction e as [z|x|o l IH] using sexp_ind'; cbn; auto.
  - specialize (H x). unfold scope_of in H. destruct (last_place x env) as [k|]; rewrite <- H; reflexivity.
  - f_equal. rewrite map_map. apply map_ext_in. intros a Ha. rewrite Forall_forall in IH. auto.
Qed.

Lemma lower_range_takes : forall r f, lower_range r = Ok f -> forall v, fvals f v <-> takes M r v.
Proof.
  intros [a s b] f K. unfold lower_range in K. cbn [fr_begin fr_step fr_end] in K.
  apply bind_ok in K as (za & Ka & K). apply bind_ok in K as (zs & Ks & K). apply bind_ok in K as (zb & Kb & K). injection K as <-.
  assert (B : forall x z, lower_bound x = Ok z -> bval M x = z) by (intros [n|x|x] z; cbn; congruence).
  apply B in Ka. apply B in Kb. assert (zs = match s with None => 1%Z | Some s => bval M s end).
  { destruct s as [s|]; [symmetry; apply B; exact Ks|congruence]. }
  subst. intros v. unfold fvals, takes. cbn. reflexivity.
Qed.

Lemma sequ_ind' : forall P : sequ -> Prop, (forall l r, P (SEq l r)) ->
  (forall is body, Forall P body -> P (SFor is body)) ->
  (forall c a b, Forall P a -> Forall P b -> P (SIf c a b)) -> forall e, P e.
Proof.
  intros P H1 H2 H3. fix IH 1. intros [l r|is body|c a b]; [apply H1| |].
  - apply H2. induction body; constructor; auto.
  - apply H3; [induction a|induction b]; constructor; auto.
Qed.
Lemma lower_for : forall env is body,
  lower_equ env (SFor is body) =
  (fs <- map_res (fun i => lower_range (snd i)) is ;; b <- lower_equs (env ++ map fst is) body ;; Ok (nest fs b)).
Proof. reflexivity. Qed.
Lemma lower_cons : forall env x l,
  lower_equs env (x :: l) = (a <- lower_equ env x ;; r <- lower_equs env l ;; Ok (a ++ r)).
Proof. reflexivity. Qed.

Lemma for_all_ext : forall is rho (P Q : scope -> Prop), (forall r, P r <-> Q r) -> (for_all M is rho P <-> for_all M is rho Q).
Proof.
  induction is as [|[x r] is IH]; intros rho P Q H; cbn; auto.
  split; intros K v T; [apply (IH _ P Q H)|apply (IH _ P Q H)]; auto.
Qed.

(** The loops that are nested in one another run through the values of the
    indices. *)
Lemma nest_for_all : forall R is fs env p b (Q : scope -> Prop),
  map_res (fun i => lower_range (snd i)) is = Ok fs -> length p = length env ->
  (forall q rho, length q = length (env ++ map fst is) ->
     (forall x, scope_of (env ++ map fst is) q x = rho x) -> (isat_all R q b <-> Q rho)) ->
  forall rho, (forall x, scope_of env p x = rho x) -> (isat_all R p (nest fs b) <-> for_all M is rho Q).
Proof.
  intros R is. induction is as [|[x r] is IH]; intros fs env p b Q K L H rho Er; cbn in K.
  - injection K as <-. cbn. rewrite app_nil_r in H. apply H; auto.
  - apply bind_ok in K as (f & Kf & K). apply bind_ok in K as (fs' & Kfs & K). injection K as <-.
    cbn [nest for_all isat_all]. rewrite isat_for.
    assert (X : forall v, isat_all R (p ++ [v]) (nest fs' b) <-> for_all M is (bound_to rho x v) Q).
    { intros v. apply (IH fs' (env ++ [x]) (p ++ [v]) b Q Kfs).
      - rewrite !app_length. cbn. lia.
      - intros q rho' Lq Eq. cbn [map fst] in H. rewrite <- app_assoc in Lq, Eq. cbn [app] in Lq, Eq. apply H; auto.
      - intros y. rewrite scope_snoc by exact L. unfold bound_to. destruct (Nat.eqb y x); auto. }
    split.
    + intros [A _] v T. apply X. apply A. apply (lower_range_takes r f Kf). exact T.
    + intros A. split; [|exact I]. intros v T. apply X. apply A. apply (lower_range_takes r f Kf). exact T.
Qed.

Lemma lower_equ_says : forall R e env p l rho, lower_equ env e = Ok l -> length p = length env ->
  (forall x, scope_of env p x = rho x) -> (isat_all R p l <-> says R M rho e).
Proof.
  intros R e. induction e as [l r|is body IH|c a b _ _] using sequ_ind'; intros env p l0 rho K L Er.
  - cbn in K. injection K as <-. cbn.
    assert (X : forall m, map (lval M p) (map (lower_exp env) m) = map (sval M rho) m).
    { intros m. rewrite map_map. apply map_ext. apply lower_exp_val. exact Er. }
    rewrite !X. tauto.
  - rewrite lower_for in K. apply bind_ok in K as (fs & Kf & K). apply bind_ok in K as (b & Kb & K). injection K as <-.
    rewrite says_for. apply (nest_for_all R is fs env p b _ Kf L); [|exact Er].
    intros q rho' Lq Eq. clear Kf Er L p. revert b Kb. induction body as [|x body IHb]; intros b Kb.
    + cbn in Kb. injection Kb as <-. cbn. tauto.
    + rewrite lower_cons in Kb. apply bind_ok in Kb as (a & Ka & Kb). apply bind_ok in Kb as (r & Kr & Kb). injection Kb as <-.
      inversion IH as [|? ? IHx IHl]; subst. rewrite isat_all_app. specialize (IHx _ q a rho' Ka Lq Eq). specialize (IHb IHl r Kr). cbn. tauto.
  - discriminate K.
Qed.
Lemma lower_equs_says : forall R l l', lower_equs [] l = Ok l' ->
  (isat_all R [] l' <-> forall e, In e l -> says R M (fun _ => None) e).
Proof.
  intros R l l' K. assert (Y := says_all_in R (fun _ => None) l).
  cut (isat_all R [] l' <-> says_all R (fun _ => None) l); [tauto|]. clear Y. revert l' K.
  induction l as [|x l IH]; intros l' K.
  - cbn in K. injection K as <-. cbn. tauto.
  - rewrite lower_cons in K. apply bind_ok in K as (a & Ka & K). apply bind_ok in K as (r & Kr & K). injection K as <-.
    rewrite isat_all_app. assert (X := lower_equ_says R x [] [] a (fun _ => None) Ka eq_refl (fun _ => eq_refl)).
    specialize (IH r Kr). cbn. tauto.
Qed.

(** ** Splitting the sides *)
Lemma ieq_ind' : forall P : ieq -> Prop, (forall l r, P (IEq l r)) -> (forall f b, Forall P b -> P (IFor f b)) -> forall e, P e.
Proof. intros P H1 H2. fix IH 1. intros [l r|f b]; [apply H1|apply H2]. induction b; constructor; auto. Qed.

Lemma isat_flat : forall R g p l, Forall (fun e => isat_all R p (g e) <-> isat R p e) l ->
  (isat_all R p (flat_map g l) <-> isat_all R p l).
Proof.
  intros R g p l F. induction F as [|x l H _ IH]; cbn; [tauto|]. rewrite isat_all_app, H, IH. tauto.
Qed.
Lemma split_isat : forall R e p, isat_all R p (split_sides e) <-> isat R p e.
Proof.
  intros R e. induction e as [l r|f b IH] using ieq_ind'; intros p.
  - cbn. destruct (negb (Nat.eqb (length l) 1) && Nat.eqb (length l) (length r)) eqn:K; [|cbn; tauto].
    apply andb_true_iff in K as [_ K]. apply Nat.eqb_eq in K. rewrite isat_all_in.
    transitivity (forall x, In x (combine l r) -> R (lval M p (fst x)) (lval M p (snd x))).
    + split.
      * intros H x Hx. specialize (H (IEq [fst x] [snd x])). cbn in H.
        assert (X : Forall2 R [lval M p (fst x)] [lval M p (snd x)]).
        { apply H. rewrite <- in_rev. apply in_map_iff. exists x; auto. }
        inversion X; auto.
      * intros H e He. rewrite <- in_rev in He. apply in_map_iff in He as (x & <- & Hx). cbn. constructor; [apply H; exact Hx|constructor].
    + revert r K. induction l as [|x l IHl]; intros [|y r] K; cbn in K; try discriminate; cbn.
      * split; [constructor|intros _ x []].
      * injection K as K. specialize (IHl r K). split.
        -- intros H. constructor; [apply (H (x, y)); auto|]. apply IHl. intros z Hz. apply H; auto.
        -- intros H. inversion H; subst. intros z [<-|Hz]; [auto|]. apply IHl; auto.
  - cbn [split_sides isat_all]. rewrite !isat_for. split.
    + intros [H _] v T. specialize (H v T). rewrite isat_flat in H; [exact H|].
      eapply Forall_impl; [|exact IH]. cbn. auto.
    + intros H. split; [|exact I]. intros v T. rewrite isat_flat; [apply H; exact T|].
      eapply Forall_impl; [|exact IH]. cbn. auto.
Qed.

(** ** Adding inductions *)
Lemma nest_dims : forall R d d' p l, compatible d d' = true ->
  forall dims, Forall2 (fun o n => match o with Some m => n = m | None => True end) d dims ->
    Forall2 (fun o n => match o with Some m => n = m | None => True end) d' dims ->
  (isat_all R p (nest (dim_loops d d') l) <-> forall idx, inside dims idx -> isat_all R (p ++ idx) l).
Proof.
  intros R d. induction d as [|o d IH]; intros [|o' d'] p l C dims F F'; cbn in C; try discriminate.
  - inversion F; subst. cbn. split.
    + intros H idx K. inversion K; subst. rewrite app_nil_r. exact H.
    + intros H. specialize (H [] (Forall2_nil _)). rewrite app_nil_r in H. exact H.
  - destruct o; discriminate.
  - inversion F as [|? n ? dims' Hn Fd]; subst. inversion F' as [|? ? ? ? Hn' Fd']; subst.
    assert (X : exists m, dim_loops (o :: d) (o' :: d') = {| fo_from := 0; fo_to := m - 1; fo_step := 1 |} :: dim_loops d d' /\ n = m /\ compatible d d' = true).
    { destruct o as [a|], o' as [b|]; cbn in C |- *; try discriminate.
      - apply andb_true_iff in C as [_ C]. exists a; auto.
      - exists a; auto.
      - exists b; auto. }
    destruct X as (m & -> & <- & C'). cbn [nest isat_all]. rewrite isat_for.
    assert (V : forall v, fvals {| fo_from := 0; fo_to := n - 1; fo_step := 1 |} v <-> (0 <= v < n)%Z).
    { intros v. unfold fvals. cbn. split.
      - intros (k & Ek & [[_ H]|[H _]]); lia.
      - intros H. exists (Z.to_nat v). split; [lia|left; lia]. }
    split.
    + intros [H _] idx K. inversion K as [|? i ? idx' Hi K']; subst.
      assert (X : p ++ i :: idx' = (p ++ [i]) ++ idx') by (rewrite <- app_assoc; reflexivity). rewrite X.
      apply (proj1 (IH d' (p ++ [i]) l C' dims' Fd Fd')); auto. apply H. apply V. exact Hi.
    + intros H. split; [|exact I]. intros v T. apply V in T. apply (proj2 (IH d' (p ++ [v]) l C' dims' Fd Fd')).
      intros idx K. rewrite <- app_assoc. apply (H (v :: idx)). constructor; auto.
Qed.

Variable ty : lexp -> option (list (option Z)).
Hypothesis types : right_types M ty.

(** The inductions an expression uses are below the depth, so that the new ones
    do not change its value. *)
Fixpoint below (n : nat) (e : lexp) : Prop :=
  match e with
  | LNum _ | LVar _ => True
  | LInd k => k < n
  | LApp _ l => (fix all (l : list lexp) : Prop := match l with [] => True | x :: l' => below n x /\ all l' end) l
  | LAt e ks => below n e /\ Forall (fun k => k < n) ks
  end.
Lemma lexp_ind' : forall P : lexp -> Prop, (forall z, P (LNum z)) -> (forall x, P (LVar x)) -> (forall k, P (LInd k)) ->
  (forall o l, Forall P l -> P (LApp o l)) -> (forall e ks, P e -> P (LAt e ks)) -> forall e, P e.
Proof. intros P H1 H2 H3 H4 H5. fix IH 1. intros [z|x|k|o l|e ks]; [apply H1|apply H2|apply H3|apply H4|apply H5; apply IH]. induction l; constructor; auto. Qed.
Lemma below_all : forall n l, (fix all (l : list lexp) : Prop := match l with [] => True | x :: l' => below n x /\ all l' end) l <-> Forall (below n) l.
Proof.
  intros n l. induction l as [|x l IH]; [split; [constructor|auto]|]. rewrite IH. split.
  - intros [A B]. constructor; auto.
  - intros H. inversion H; auto.
Qed.
Lemma below_val : forall e p q, below (length p) e -> lval M (p ++ q) e = lval M p e.
Proof.
  intros e p q. induction e as [z|x|k|o l IH|e ks IH] using lexp_ind'; intros B; cbn in B |- *; auto.
  - rewrite app_nth1 by exact B. reflexivity.
  - apply below_all in B. f_equal. apply map_ext_in. intros a Ha. rewrite Forall_forall in IH, B. auto.
  - destruct B as [B1 B2]. rewrite IH by exact B1. f_equal. apply map_ext_in. intros k Hk. rewrite Forall_forall in B2.
    apply app_nth1. auto.
Qed.
Fixpoint below_eq (n : nat) (e : ieq) : Prop :=
  match e with
  | IEq l r => Forall (below n) l /\ Forall (below n) r
  | IFor f b => (fix all (l : list ieq) : Prop := match l with [] => True | x :: l' => below_eq (S n) x /\ all l' end) b
  end.
Lemma below_eq_all : forall n l, (fix all (l : list ieq) : Prop := match l with [] => True | x :: l' => below_eq n x /\ all l' end) l <-> Forall (below_eq n) l.
Proof.
  intros n l. induction l as [|x l IH]; [split; [constructor|auto]|]. rewrite IH. split.
  - intros [A B]. constructor; auto.
  - intros H. inversion H; auto.
Qed.

Lemma nth_seq_app : forall (idx p : list Z), map (fun k => nth k (p ++ idx) 0%Z) (seq (length p) (length idx)) = idx.
Proof.
  induction idx as [|i idx IH]; intros p; [reflexivity|]. cbn [length seq map].
  rewrite app_nth2, Nat.sub_diag by lia. cbn [nth]. f_equal.
  specialize (IH (p ++ [i])). rewrite app_length in IH. cbn [length] in IH. rewrite Nat.add_1_r in IH. rewrite <- app_assoc in IH. exact IH.
Qed.

Lemma compatible_length : forall d d', compatible d d' = true -> length d = length d'.
Proof.
  induction d as [|o d IH]; intros [|o' d'] K; cbn in K; try discriminate; auto.
  - destruct o; discriminate.
  - destruct o, o'; try discriminate; cbn; f_equal; apply IH; auto. apply andb_true_iff in K. tauto.
Qed.

Lemma explicitate_isat : forall e p, below_eq (length p) e -> isat same_shape p e ->
  (isat_all equal_values p (explicitate ty (length p) e) <-> isat equal_values p e).
Proof.
  intros e. induction e as [l r|f b IH] using ieq_ind'; intros p B S.
  - destruct l as [|l [|l2 ls]]; [cbn; tauto| |cbn; destruct r as [|? [|? ?]]; tauto].
    destruct r as [|r [|r2 rs]]; [cbn; tauto| |cbn; tauto].
    cbn [explicitate]. destruct (ty l) as [d|] eqn:Tl; [|cbn; tauto]. destruct (ty r) as [d'|] eqn:Tr; [|cbn; tauto].
    destruct (compatible d d') eqn:C; [|cbn; tauto]. cbv zeta.
    destruct (types l d p Tl) as (dims & fl & El & Fl). destruct (types r d' p Tr) as (dims' & fr & Er & Fr).
    cbn in S. rewrite El, Er in S. inversion S as [|? ? ? ? S1 _]; subst. cbn in S1. subst dims'.
    rewrite (nest_dims equal_values d d' p _ C dims Fl Fr).
    cbn in B. destruct B as [Bl Br]. inversion Bl as [|? ? Bl1 _]; subst. inversion Br as [|? ? Br1 _]; subst.
    assert (Ld : length d = length dims) by (clear - Fl; induction Fl; cbn; auto).
    cbn. rewrite El, Er. split.
    + intros H. constructor; [|constructor]. cbn. split; [reflexivity|]. intros idx K. destruct (H idx K) as [H1 _].
      assert (Li : length dims = length idx) by (clear - K; induction K; cbn; auto).
      rewrite Ld, Li in H1. rewrite nth_seq_app, !below_val, El, Er in H1 by assumption. cbn in H1. inversion H1; auto.
    + intros H idx K. split; [|exact I]. inversion H as [|? ? ? ? H1 _]; subst. cbn in H1. destruct H1 as [_ H1].
      assert (Li : length dims = length idx) by (clear - K; induction K; cbn; auto).
      rewrite Ld, Li. rewrite nth_seq_app, !below_val, El, Er by assumption. cbn. constructor; [apply H1; exact K|constructor].
  - cbn [explicitate isat_all]. rewrite !isat_for. cbn [below_eq] in B. apply below_eq_all in B. rewrite isat_for in S.
    assert (X : forall v, fvals f v -> (isat_all equal_values (p ++ [v]) (flat_map (explicitate ty (Datatypes.S (length p))) b) <-> isat_all equal_values (p ++ [v]) b)).
    { intros v T. apply isat_flat. apply Forall_forall. intros e He. rewrite Forall_forall in IH, B.
      specialize (IH e He (p ++ [v])). rewrite app_length in IH. cbn [length] in IH. rewrite Nat.add_1_r in IH. apply IH; auto.
      specialize (S v T). rewrite isat_all_in in S. auto. }
    split.
    + intros [H _] v T. apply X; auto.
    + intros H. split; [|exact I]. intros v T. apply X; auto.
Qed.

(** The operations that were lowered, and their split, use only the inductions
    around them. *)
Lemma lower_exp_below : forall env e, below (length env) (lower_exp env e).
Proof.
  intros env e. induction e as [z|x|o l IH] using sexp_ind'; cbn; auto.
  - destruct (last_place x env) as [k|] eqn:K; cbn; auto. apply (last_place_lt x env k K).
  - apply below_all. apply Forall_forall. intros a Ha. apply in_map_iff in Ha as (b & <- & Hb). rewrite Forall_forall in IH. auto.
Qed.
Lemma nest_below : forall fs n b, Forall (below_eq (n + length fs)) b -> Forall (below_eq n) (nest fs b).
Proof.
  induction fs as [|f fs IH]; intros n b F; cbn [nest length] in *; [rewrite Nat.add_0_r in F; exact F|].
  constructor; [|constructor]. cbn [below_eq]. apply below_eq_all. apply IH. rewrite Nat.add_succ_comm. exact F.
Qed.
Lemma map_res_length : forall {A B} (g : A -> res B) l m, map_res g l = Ok m -> length m = length l.
Proof.
  intros A B g l. induction l as [|x l IH]; intros m K; cbn in K; [injection K as <-; reflexivity|].
  apply bind_ok in K as (y & _ & K). apply bind_ok in K as (r & Kr & K). injection K as <-. cbn. f_equal. auto.
Qed.
Lemma lower_equ_below : forall e env l, lower_equ env e = Ok l -> Forall (below_eq (length env)) l.
Proof.
  intros e. induction e as [l r|is body IH|c a b _ _] using sequ_ind'; intros env l0 K.
  - cbn in K. injection K as <-. constructor; [|constructor]. cbn. split; apply Forall_forall; intros x Hx;
      apply in_map_iff in Hx as (y & <- & _); apply lower_exp_below.
  - rewrite lower_for in K. apply bind_ok in K as (fs & Kf & K). apply bind_ok in K as (b & Kb & K). injection K as <-.
    apply nest_below. apply map_res_length in Kf. rewrite Kf.
    assert (X : length env + length is = length (env ++ map fst is)) by (rewrite app_length, map_length; reflexivity). rewrite X.
    clear Kf X. revert b Kb. induction body as [|x body IHb]; intros b Kb.
    + cbn in Kb. injection Kb as <-. constructor.
    + rewrite lower_cons in Kb. apply bind_ok in Kb as (a & Ka & Kb). apply bind_ok in Kb as (r & Kr & Kb). injection Kb as <-.
      inversion IH as [|? ? IHx IHl]; subst. apply Forall_app. split; auto.
  - discriminate K.
Qed.
Lemma lower_equs_below : forall l l', lower_equs [] l = Ok l' -> Forall (below_eq 0) l'.
Proof.
  induction l as [|x l IH]; intros l' K.
  - cbn in K. injection K as <-. constructor.
  - rewrite lower_cons in K. apply bind_ok in K as (a & Ka & K). apply bind_ok in K as (r & Kr & K). injection K as <-.
    apply Forall_app. split; [apply (lower_equ_below x [] a Ka)|auto].
Qed.
Lemma split_below : forall e n, below_eq n e -> Forall (below_eq n) (split_sides e).
Proof.
  intros e. induction e as [l r|f b IH] using ieq_ind'; intros n B.
  - cbn. destruct (negb (Nat.eqb (length l) 1) && Nat.eqb (length l) (length r)); [|constructor; [exact B|constructor]].
    apply Forall_forall. intros e He. rewrite <- in_rev in He. apply in_map_iff in He as ([x y] & <- & Hx). cbn in *.
    destruct B as [B1 B2]. rewrite Forall_forall in B1, B2. split; constructor; try constructor.
    + apply B1. apply (in_combine_l _ _ _ _ Hx).
    + apply B2. apply (in_combine_r _ _ _ _ Hx).
  - cbn [split_sides]. constructor; [|constructor]. cbn [below_eq] in B |- *. apply below_eq_all in B. apply below_eq_all.
    apply Forall_forall. intros e He. apply in_flat_map in He as (x & Hx & He). rewrite Forall_forall in IH, B.
    specialize (IH x Hx (Datatypes.S n) (B x Hx)). rewrite Forall_forall in IH. auto.
Qed.

(** ** Templates *)
Definition runs (fs : list fop) (p : list Z) : Prop := Forall2 fvals fs p.

Definition esat (R : val E -> val E -> Prop) (e : list fop * (list lexp * list lexp)) : Prop :=
  forall p, runs (fst e) p -> Forall2 R (map (lval M p) (fst (snd e))) (map (lval M p) (snd (snd e))).

Lemma forall2_snoc_inv : forall {A B} (Q : A -> B -> Prop) l x m, Forall2 Q (l ++ [x]) m -> exists m' y, m = m' ++ [y] /\ Forall2 Q l m' /\ Q x y.
Proof.
  intros A B Q l x m F. apply Forall2_app_inv_l in F as (m1 & m2 & F1 & F2 & ->).
  inversion F2 as [|? y ? ? H F3]; subst. inversion F3; subst. exists m1, y. auto.
Qed.

(** What an operation and the equations in it say, for all points of the loops
    around it. *)
Lemma direct_in : forall loops b x, In x (direct loops b) <-> exists l r, In (IEq l r) b /\ x = (loops, (l, r)).
Proof.
  intros loops b x. unfold direct. rewrite in_flat_map. split.
  - intros ([l r|f c] & He & Hx); [|destruct Hx]. destruct Hx as [<-|[]]. eauto.
  - intros (l & r & He & ->). exists (IEq l r). split; [exact He|left; reflexivity].
Qed.
Lemma nested_isat : forall R e loops,
  (forall x, In x (direct loops [e] ++ nested loops e) -> esat R x) <-> (forall p, runs loops p -> isat R p e).
Proof.
  intros R e. induction e as [l r|f b IH] using ieq_ind'; intros loops.
  - cbn. split.
    + intros H p T. apply (H (loops, (l, r))); auto.
    + intros H x [<-|[]]. intros p T. apply H. exact T.
  - assert (N : direct loops [IFor f b] = []) by reflexivity. rewrite N. cbn [app nested].
    transitivity (forall e, In e b -> forall x, In x (direct (loops ++ [f]) [e] ++ nested (loops ++ [f]) e) -> esat R x).
    + split.
      * intros H e He x Hx. apply H. apply in_app_iff in Hx as [Hx|Hx]; apply in_app_iff.
        -- left. apply direct_in in Hx as (l & r & [Eb|[]] & ->). subst e. apply direct_in. eauto.
        -- right. apply in_concat. exists (nested (loops ++ [f]) e). split; [|exact Hx]. rewrite <- in_rev. apply in_map. exact He.
      * intros H x Hx. apply in_app_iff in Hx as [Hx|Hx].
        -- apply direct_in in Hx as (l & r & Hb & ->). apply (H _ Hb). apply in_app_iff. left. left. reflexivity.
        -- apply in_concat in Hx as (y & Hy & Hx). rewrite <- in_rev in Hy. apply in_map_iff in Hy as (e & <- & He).
           apply (H e He). apply in_app_iff. auto.
    + split.
      * intros H p T. rewrite isat_for. intros v Tv. apply isat_all_in. intros e He. rewrite Forall_forall in IH.
        apply (proj1 (IH e He (loops ++ [f])) (H e He)). apply Forall2_app; [exact T|constructor; [exact Tv|constructor]].
      * intros H e He. rewrite Forall_forall in IH. apply (proj2 (IH e He (loops ++ [f]))). intros p T.
        apply forall2_snoc_inv in T as (p' & v & -> & T & Tv). specialize (H p' T). rewrite isat_for in H. specialize (H v Tv).
        rewrite isat_all_in in H. auto.
Qed.

Lemma collect_isat : forall R (i : bool) secs,
  (forall x, In (i, x) (collect secs) -> esat R x) <-> (forall l, In (i, l) secs -> isat_all R [] l).
Proof.
  intros R i secs.
  transitivity (forall l, In (i, l) secs -> forall e, In e l -> forall x, In x (direct [] [e] ++ nested [] e) -> esat R x).
  - unfold collect. split.
    + intros H l Hl e He x Hx. apply H. apply in_app_iff. apply in_app_iff in Hx as [Hx|Hx].
      * left. apply in_flat_map. exists (i, l). split; [exact Hl|]. cbn. apply in_map_iff. exists x. split; [reflexivity|].
        apply direct_in in Hx as (a & b & [Eb|[]] & ->). subst e. apply direct_in. eauto.
      * right. apply in_concat. exists (map (fun y => (i, y)) (nested [] e)). split; [|apply in_map; exact Hx].
        rewrite <- in_rev. apply in_flat_map. exists (i, l). split; [exact Hl|]. cbn. apply in_map_iff. eauto.
    + intros H x Hx. apply in_app_iff in Hx as [Hx|Hx].
      * apply in_flat_map in Hx as ([j l] & Hl & Hx). cbn in Hx. apply in_map_iff in Hx as (y & Ey & Hy). injection Ey as -> ->.
        apply direct_in in Hy as (a & b & Hb & ->). apply (H l Hl _ Hb). left. reflexivity.
      * apply in_concat in Hx as (y & Hy & Hx). rewrite <- in_rev in Hy. apply in_flat_map in Hy as ([j l] & Hl & Hy). cbn in Hy.
        apply in_map_iff in Hy as (e & <- & He). apply in_map_iff in Hx as (z & Ez & Hz). injection Ez as -> ->.
        apply (H l Hl e He). apply in_app_iff. auto.
  - split.
    + intros H l Hl. apply isat_all_in. intros e He. apply (proj1 (nested_isat R e [])); [intros x Hx; apply (H l Hl e He x Hx)|constructor].
    + intros H l Hl e He. apply (proj2 (nested_isat R e [])). intros p T. inversion T; subst. specialize (H l Hl). rewrite isat_all_in in H. auto.
Qed.
End SOLUTION.

(** ** Iteration spaces *)
Definition apart (a b : range) : Prop := forall v, ~ (in_range v a /\ in_range v b).
Definition among (rs : list range) (v : Z) : Prop := exists r, In r rs /\ in_range v r.

Lemma step_stuck : forall fuel index to step rs, (step <= 0)%Z -> (index <= to)%Z -> step_ranges fuel index to step <> Ok rs.
Proof.
  induction fuel as [|fuel IH]; intros index to step rs Hs Hi; cbn.
  - destruct (Z.ltb_spec index (to + 1)); [discriminate|lia].
  - destruct (Z.ltb_spec index (to + 1)); [|lia]. intros K. apply bind_ok in K as (r & Kr & _). apply (IH _ _ _ r Hs) in Kr; [exact Kr|lia].
Qed.
Lemma step_ok : forall fuel index to step rs, (0 < step)%Z -> step_ranges fuel index to step = Ok rs ->
  (forall v, among rs v <-> exists k : nat, v = (index + Z.of_nat k * step)%Z /\ (v <= to)%Z) /\
  Forall (fun r => range_ok r /\ (index <= rbegin r)%Z) rs /\ ForallOrdPairs apart rs.
Proof.
  induction fuel as [|fuel IH]; intros index to step rs Hs K; cbn in K; destruct (Z.ltb_spec index (to + 1)) as [L|L]; try discriminate.
  1, 3: injection K as <-; split; [|split; constructor]; intros v; split; [intros (r & [] & _)|intros (k & Ek & Hv); nia].
  apply bind_ok in K as (r & Kr & K). injection K as <-. destruct (IH _ _ _ _ Hs Kr) as (A & B & C). split; [|split].
  - intros v. split.
    + intros (x & [<-|Hx] & Hv); [exists 0%nat; unfold in_range in Hv; cbn in Hv; lia|].
      destruct (proj1 (A v)) as (k & Ek & Hk); [exists x; auto|]. exists (S k). lia.
    + intros (k & Ek & Hk). destruct k as [|k]; [exists (mkRange index (index + 1)); split; [left; reflexivity|unfold in_range; cbn; lia]|].
      destruct (proj2 (A v)) as (x & Hx & Hv); [exists k; lia|]. exists x. split; [right; exact Hx|exact Hv].
  - constructor; [unfold range_ok; cbn; lia|]. eapply Forall_impl; [|exact B]. cbn. intros x [? ?]. split; [assumption|lia].
  - constructor; [|exact C]. eapply Forall_impl; [|exact B]. cbn. intros x [_ Hx] v [H1 H2]. unfold in_range in *. cbn in *. lia.
Qed.
Lemma dim_ok : forall f rs, dim_ranges f = Ok rs -> rs <> [] ->
  (forall v, among rs v <-> fvals f v) /\ Forall range_ok rs /\ ForallOrdPairs apart rs.
Proof.
  intros f rs K N. unfold dim_ranges in K. destruct (Z.eqb_spec (fo_step f) 1) as [E1|E1].
  - apply bind_ok in K as (u & Ku & K). apply assert_ok_inv in Ku. apply Z.ltb_lt in Ku. injection K as <-. split; [|split].
    + intros v. unfold fvals. rewrite E1. split.
      * intros (r & [<-|[]] & Hv). unfold in_range in Hv. cbn in Hv. exists (Z.to_nat (v - fo_from f)). split; [lia|left; lia].
      * intros (k & Ek & [H|H]); [|lia]. eexists. split; [left; reflexivity|]. unfold in_range; cbn; lia.
    + constructor; [unfold range_ok; cbn; lia|constructor].
    + constructor; constructor.
  - destruct (Z_lt_le_dec 0 (fo_step f)) as [P|P].
    + destruct (step_ok _ _ _ _ _ P K) as (A & B & C). split; [|split; [|exact C]].
      * intros v. rewrite A. unfold fvals. split; intros (k & Ek & H); exists k; [split; [exact Ek|left; lia]|].
        destruct H as [H|H]; [tauto|lia].
      * eapply Forall_impl; [|exact B]. cbn. tauto.
    + destruct (Z_le_gt_dec (fo_from f) (fo_to f)) as [L|L].
      * destruct (step_stuck _ _ _ _ rs P L K).
      * exfalso. apply N. destruct (Z.to_nat (fo_to f + 1 - fo_from f)) in K; cbn in K;
          destruct (Z.ltb_spec (fo_from f) (fo_to f + 1)); try lia; congruence.
Qed.

Lemma combinations_ok : forall dims boxes, combinations dims = Ok boxes -> boxes <> [] ->
  Forall (fun rs : list range => rs <> []) dims /\
  (forall p, in_boxes p boxes <-> Forall2 among dims p) /\
  (Forall (Forall range_ok) dims -> Forall (box_of (length dims)) boxes) /\
  (Forall (ForallOrdPairs apart) dims -> disj boxes).
Proof.
  induction dims as [|rs dims IH]; intros boxes K N; [discriminate K|]. cbn [combinations] in K. destruct dims as [|rs2 dims].
  - injection K as <-. split; [|split; [|split]].
    + constructor; [|constructor]. intros ->. apply N. reflexivity.
    + intros p. split.
      * intros (b & Hb & Hp). apply in_map_iff in Hb as (r & <- & Hr). inversion Hp as [|v ? ? ? Hv Hn]; subst. inversion Hn; subst.
        constructor; [exists r; auto|constructor].
      * intros F. inversion F as [|? v ? ? (r & Hr & Hv) Hn]; subst. inversion Hn; subst. exists [r]. split; [apply in_map_iff; eauto|].
        constructor; [exact Hv|constructor].
    + intros F. inversion F as [|? ? F1 _]; subst. apply Forall_forall. intros b Hb. apply in_map_iff in Hb as (r & <- & Hr).
      rewrite Forall_forall in F1. split; [|reflexivity]. split; [discriminate|]. constructor; [apply F1; exact Hr|constructor].
    + intros F. inversion F as [|? ? F1 _]; subst. clear - F1. induction F1 as [|r rs H _ IH]; cbn; constructor; [|exact IH].
      apply Forall_forall. intros b Hb. apply in_map_iff in Hb as (r' & <- & Hr). rewrite Forall_forall in H. specialize (H r' Hr).
      intros p [H1 H2]. inversion H1 as [|v ? ? ? Hv Hn]; subst. inversion H2 as [|? ? ? ? Hv' Hn']; subst. apply (H v). auto.
  - apply bind_ok in K as (sub & Ks & K). apply bind_ok in K as (u & Ku & K). apply assert_ok_inv in Ku. injection K as <-.
    assert (Ns : sub <> []).
    { intros ->. apply N. cbn. clear. induction rs; cbn; auto. }
    destruct (IH sub Ks Ns) as (A & B & C & D). split; [|split; [|split]].
    + constructor; [destruct rs; [discriminate Ku|discriminate]|exact A].
    + intros p. split.
      * intros (b & Hb & Hp). apply in_flat_map in Hb as (r & Hr & Hb). apply in_map_iff in Hb as (c & <- & Hc).
        inversion Hp as [|v ? q ? Hv Hq]; subst. constructor; [exists r; auto|]. apply B. exists c; auto.
      * intros F. inversion F as [|? v ? q (r & Hr & Hv) Hq]; subst. apply B in Hq as (c & Hc & Hq). exists (r :: c). split.
        -- apply in_flat_map. exists r. split; [exact Hr|]. apply in_map_iff. eauto.
        -- constructor; auto.
    + intros F. inversion F as [|? ? F1 F2]; subst. specialize (C F2). apply Forall_forall. intros b Hb.
      apply in_flat_map in Hb as (r & Hr & Hb). apply in_map_iff in Hb as (c & <- & Hc). rewrite Forall_forall in C, F1.
      destruct (C c Hc) as [[C1 C2] C3]. split; [|cbn; f_equal; exact C3]. split; [discriminate|]. constructor; auto.
    + intros F. inversion F as [|? ? F1 F2]; subst. specialize (D F2). clear - F1 D. induction F1 as [|r rs H _ IH]; cbn; [constructor|].
      apply MDRangeProofs.ForallOrdPairs_app; [|exact IH|].
      * apply (MDRangeProofs.ForallOrdPairs_map _ _ (fun c => r :: c) disjoint_boxes); [|exact D].
        intros a b Hab p [H1 H2]. inversion H1 as [|v ? q ? Hv Hq]; subst. inversion H2; subst. apply (Hab q). auto.
      * intros a b Ha Hb. apply in_map_iff in Ha as (c & <- & Hc). apply in_flat_map in Hb as (r' & Hr & Hb).
        apply in_map_iff in Hb as (c' & <- & Hc'). rewrite Forall_forall in H. specialize (H r' Hr). intros p [H1 H2].
        inversion H1 as [|v ? q ? Hv Hq]; subst. inversion H2; subst. apply (H v). auto.
Qed.

Lemma map_res_forall2 : forall {A B} (g : A -> res B) l m, map_res g l = Ok m -> Forall2 (fun a b => g a = Ok b) l m.
Proof.
  intros A B g l. induction l as [|x l IH]; intros m K; cbn in K; [injection K as <-; constructor|].
  apply bind_ok in K as (y & Ky & K). apply bind_ok in K as (r & Kr & K). injection K as <-. constructor; auto.
Qed.

Lemma space_nil : is_setFromRanges isMin isMax [] = Ok is_empty_set.
Proof. vm_compute. reflexivity. Qed.

Lemma template_space : forall e t, create_template isMin isMax e = Ok t ->
  ft_inductions t = length (fst e) /\ ft_lhs t = fst (snd e) /\ ft_rhs t = snd (snd e) /\
  (forall p, iteration_of t p <-> runs (fst e) p) /\ disj (is_ranges (ft_indices t)).
Proof.
  intros [loops [l r]] t K. unfold create_template in K. cbn [fst snd] in K.
  apply bind_ok in K as (s & Ks & K). apply bind_ok in K as (u & Ku & K). apply assert_ok_inv in Ku. apply Nat.eqb_eq in Ku.
  injection K as <-. cbn. split; [reflexivity|]. split; [reflexivity|]. split; [reflexivity|].
  unfold iteration_of, iteration_space in *. destruct loops as [|f loops].
  - injection Ks as <-. split; [|constructor]. intros p. cbn. split.
    + intros [Lp _]. destruct p; [constructor|discriminate].
    + intros R. inversion R; subst. auto.
  - apply bind_ok in Ks as (dims & Kd & Ks). apply bind_ok in Ks as (boxes & Kb & Ks). cbn [ft_inductions ft_indices] in *.
    assert (N : boxes <> []). { intros ->. rewrite space_nil in Ks. injection Ks as <-. cbn in Ku. discriminate. }
    destruct (combinations_ok dims boxes Kb N) as (A & B & C & D). apply map_res_forall2 in Kd.
    assert (X : Forall2 (fun f rs => (forall v, among rs v <-> fvals f v) /\ Forall range_ok rs /\ ForallOrdPairs apart rs) (f :: loops) dims).
    { clear - Kd A. induction Kd; [constructor|]. inversion A; subst. constructor; auto. apply dim_ok; auto. }
    assert (L : length dims = length (f :: loops)) by (clear - X; induction X; cbn; auto).
    assert (Bx : Forall (box_of (length (f :: loops))) boxes).
    { rewrite <- L. apply C. clear - X. induction X; constructor; tauto. }
    destruct (of_boxes (length (f :: loops)) boxes ltac:(cbn; lia) Bx) as (t & Et & F1 & F2 & F3).
    rewrite Et in Ks. injection Ks as <-. split.
    + intros p. assert (Y : Forall2 among dims p <-> runs (f :: loops) p).
      { clear - X. unfold runs. revert p. induction X as [|g rs gs dims (H & _) _ IH]; intros p.
        - split; intros Q; inversion Q; constructor.
        - split; intros Q; inversion Q as [|? v ? q Hv Hq]; subst; constructor; try (apply H; exact Hv); apply IH; exact Hq. }
      split.
      * intros [Lp [Z0|Hp]]; [discriminate Z0|]. apply Y. apply B. apply F2; auto.
      * intros R. assert (Lp : length p = length (f :: loops)) by (clear - R; unfold runs in R; induction R; cbn; auto).
        split; [exact Lp|]. right. apply F2; [exact Lp|]. apply B. apply Y. exact R.
    + apply F3. apply D. clear - X. induction X; constructor; tauto.
Qed.

(** ** The whole way *)
Lemma compile_parts : forall ty secs ts, compile_equations isMin isMax ty secs = Ok ts ->
  exists is, Forall2 (fun s s' => fst s' = fst s /\ lower_equs [] (snd s) = Ok (snd s')) secs is /\
    Forall2 (fun e t => fst t = fst e /\ create_template isMin isMax (snd e) = Ok (snd t))
      (collect (map (fun s => (fst s, flat_map (explicitate ty 0) (flat_map split_sides (snd s)))) is)) ts.
Proof.
  intros ty secs ts K. unfold compile_equations in K. apply bind_ok in K as (is & Ki & K). exists is. split.
  - apply map_res_forall2 in Ki. clear K. induction Ki as [|s s' ? ? H _ IH]; constructor; auto.
    apply bind_ok in H as (b & Kb & H). injection H as <-. auto.
  - unfold create_templates in K. apply map_res_forall2 in K. clear Ki. induction K as [|s s' ? ? H _ IH]; constructor; auto.
    apply bind_ok in H as (b & Kb & H). injection H as <-. auto.
Qed.
Lemma forall2_in_l : forall {A B} (Q : A -> B -> Prop) l m x, Forall2 Q l m -> In x l -> exists y, In y m /\ Q x y.
Proof.
  intros A B Q l m x F. induction F as [|a b l m H _ IH]; intros K; [destruct K|]. destruct K as [<-|K]; [exists b; split; [left|]; auto|].
  destruct (IH K) as (y & Hy & Hq). exists y. split; [right|]; auto.
Qed.
Lemma forall2_in_r : forall {A B} (Q : A -> B -> Prop) l m y, Forall2 Q l m -> In y m -> exists x, In x l /\ Q x y.
Proof.
  intros A B Q l m x F. induction F as [|a b l m H _ IH]; intros K; [destruct K|]. destruct K as [<-|K]; [exists a; split; [left|]; auto|].
  destruct (IH K) as (y & Hy & Hq). exists y. split; [right|]; auto.
Qed.

Lemma compile_solves : forall E (M : solution E) ty secs ts i,
  compile_equations isMin isMax ty secs = Ok ts -> right_types M ty -> well_sized M secs ->
  (solves M i secs <-> forall t, In (i, t) ts -> template_solved M t).
Proof.
  intros E M ty secs ts i K T W. destruct (compile_parts ty secs ts K) as (is & F & G).
  set (final := map (fun s => (fst s, flat_map (explicitate ty 0) (flat_map split_sides (snd s)))) is) in *.
  transitivity (forall l, In (i, l) final -> isat_all M equal_values [] l).
  - transitivity (forall l, In (i, l) is -> isat_all M equal_values [] l).
    + unfold solves. split.
      * intros H l Hl. destruct (forall2_in_r _ _ _ _ F Hl) as ([j l0] & H0 & Ej & El). cbn in Ej, El. subst j.
        apply (lower_equs_says M equal_values l0 l El). intros e He. apply (H l0 e H0 He).
      * intros H l e Hl He. destruct (forall2_in_l _ _ _ _ F Hl) as ([j l'] & H' & Ej & El). cbn in Ej, El. subst j.
        apply (proj1 (lower_equs_says M equal_values l l' El) (H l' H') e He).
    + assert (X : forall l, In (i, l) is -> (isat_all M equal_values [] (flat_map (explicitate ty 0) (flat_map split_sides l)) <-> isat_all M equal_values [] l)).
      { intros l Hl. destruct (forall2_in_r _ _ _ _ F Hl) as ([j l0] & H0 & Ej & El). cbn in Ej, El. subst j.
        assert (Sh : isat_all M same_shape [] (flat_map split_sides l)).
        { rewrite isat_flat; [|apply Forall_forall; intros e _; apply split_isat].
          apply (lower_equs_says M same_shape l0 l El). intros e He. apply (W i l0 e H0 He). }
        assert (Be : Forall (below_eq 0) (flat_map split_sides l)).
        { apply Forall_forall. intros e He. apply in_flat_map in He as (x & Hx & He). assert (Q := lower_equs_below l0 l El).
          rewrite Forall_forall in Q. assert (Q2 := split_below x 0 (Q x Hx)). rewrite Forall_forall in Q2. auto. }
        rewrite isat_flat.
        - apply isat_flat. apply Forall_forall. intros e _. apply split_isat.
        - apply Forall_forall. intros e He. rewrite isat_all_in in Sh. rewrite Forall_forall in Be.
          apply (explicitate_isat M ty T e []); auto. }
      unfold final. split.
      * intros H l Hl. apply in_map_iff in Hl as ([j l0] & Ej & H0). injection Ej as -> <-. apply X; auto.
      * intros H l Hl. apply X; [exact Hl|]. apply H. apply in_map_iff. exists (i, l). auto.
  - rewrite <- (collect_isat M equal_values i final). unfold template_solved, esat. split.
    + intros H t Ht p Hp. destruct (forall2_in_r _ _ _ _ G Ht) as ([j e] & He & Ej & Et). cbn in Ej, Et. subst j.
      destruct (template_space e t Et) as (_ & -> & -> & S & _). apply (H e He). apply S. exact Hp.
    + intros H e He p Hp. destruct (forall2_in_l _ _ _ _ G He) as ([j t] & Ht & Ej & Et). cbn in Ej, Et. subst j.
      destruct (template_space e t Et) as (_ & El & Er & S & _). rewrite <- El, <- Er. apply (H t Ht). apply S. exact Hp.
Qed.

Lemma compile_once : forall ty secs ts i t, compile_equations isMin isMax ty secs = Ok ts -> In (i, t) ts -> disj (is_ranges (ft_indices t)).
Proof.
  intros ty secs ts i t K Ht. destruct (compile_parts ty secs ts K) as (is & F & G).
  destruct (forall2_in_r _ _ _ _ G Ht) as (e & He & _ & Et). apply (template_space (snd e) t Et).
Qed.

(** ** Numbers of templates *)
Lemma fix_all_forall : forall {A} (P : A -> Prop) l,
  (fix all (l : list A) : Prop := match l with [] => True | x :: l' => P x /\ all l' end) l <-> Forall P l.
Proof.
  intros A P l. induction l as [|x l IH]; [split; [constructor|auto]|]. rewrite IH. split.
  - intros [? ?]. constructor; auto.
  - intros H. inversion H; auto.
Qed.

Fixpoint ops (e : ieq) : nat := match e with IEq _ _ => 1 | IFor _ b => list_sum (map ops b) end.
Definition ops_all (l : list ieq) : nat := list_sum (map ops l).
Lemma ops_all_app : forall a b, ops_all (a ++ b) = ops_all a + ops_all b.
Proof. intros a b. unfold ops_all. rewrite map_app, list_sum_app. reflexivity. Qed.
Lemma ops_flat : forall {A} (g : A -> list ieq) (h : A -> nat) l, Forall (fun e => ops_all (g e) = h e) l ->
  ops_all (flat_map g l) = list_sum (map h l).
Proof. intros A g h l F. induction F as [|x l H _ IH]; [reflexivity|]. cbn [flat_map map list_sum fold_right]. rewrite ops_all_app, H, IH. reflexivity. Qed.
Lemma ops_nest : forall fs b, ops_all (nest fs b) = ops_all b.
Proof.
  induction fs as [|f fs IH]; intros b; [reflexivity|]. cbn [nest]. rewrite <- (IH b).
  unfold ops_all. cbn [map ops list_sum fold_right]. apply Nat.add_0_r.
Qed.
Lemma split_nest : forall fs b, flat_map split_sides (nest fs b) = nest fs (flat_map split_sides b).
Proof. induction fs as [|f fs IH]; intros b; [reflexivity|]. cbn [nest flat_map split_sides app]. rewrite IH. reflexivity. Qed.

Lemma written_split : forall e env l, lower_equ env e = Ok l -> balanced e -> ops_all (flat_map split_sides l) = written e.
Proof.
  intros e. induction e as [l r|is body IH|c a b _ _] using sequ_ind'; intros env l0 K B.
  - cbn in K. injection K as <-. cbn in B. cbn [flat_map split_sides]. rewrite app_nil_r, !map_length, B, Nat.eqb_refl, andb_true_r.
    destruct (Nat.eqb_spec (length r) 1) as [E1|E1]; cbn [negb].
    + cbn. lia.
    + unfold ops_all. rewrite map_rev, map_map. cbn [ops written].
      assert (X : forall m : list (lexp * lexp), list_sum (rev (map (fun _ => 1) m)) = length m).
      { induction m as [|x m IHm]; [reflexivity|]. cbn [map rev length]. rewrite list_sum_app, IHm. cbn. lia. }
      rewrite X, combine_length, !map_length. lia.
  - rewrite lower_for in K. apply bind_ok in K as (fs & Kf & K). apply bind_ok in K as (b & Kb & K). injection K as <-.
    rewrite split_nest, ops_nest. cbn [balanced written] in B |- *. apply fix_all_forall in B. clear Kf. revert b Kb.
    induction body as [|x body IHb]; intros b Kb.
    + cbn in Kb. injection Kb as <-. reflexivity.
    + rewrite lower_cons in Kb. apply bind_ok in Kb as (a & Ka & Kb). apply bind_ok in Kb as (r & Kr & Kb). injection Kb as <-.
      inversion IH as [|? ? IHx IHl]; subst. inversion B as [|? ? Bx Bl]; subst. rewrite flat_map_app, ops_all_app.
      rewrite (IHx _ _ Ka Bx), (IHb IHl Bl r Kr). reflexivity.
  - discriminate K.
Qed.
Lemma written_splits : forall l l', lower_equs [] l = Ok l' -> Forall balanced l -> ops_all (flat_map split_sides l') = list_sum (map written l).
Proof.
  induction l as [|x l IH]; intros l' K B.
  - cbn in K. injection K as <-. reflexivity.
  - rewrite lower_cons in K. apply bind_ok in K as (a & Ka & K). apply bind_ok in K as (r & Kr & K). injection K as <-.
    inversion B; subst. rewrite flat_map_app, ops_all_app, (written_split x [] a Ka), (IH r Kr) by assumption. reflexivity.
Qed.
Lemma explicitate_ops : forall ty e n, ops_all (explicitate ty n e) = ops e.
Proof.
  intros ty e. induction e as [l r|f b IH] using ieq_ind'; intros n.
  - destruct l as [|l [|l2 ls]]; [reflexivity| |cbn; destruct r as [|? [|? ?]]; reflexivity].
    destruct r as [|r [|r2 rs]]; [reflexivity| |reflexivity]. cbn [explicitate]. destruct (ty l); [|reflexivity]. destruct (ty r); [|reflexivity].
    destruct (compatible _ _); [|reflexivity]. cbv zeta. rewrite ops_nest. reflexivity.
  - cbn [explicitate]. unfold ops_all at 1. cbn [map ops list_sum fold_right]. rewrite Nat.add_0_r.
    change (ops_all (flat_map (explicitate ty (S n)) b) = list_sum (map ops b)). apply ops_flat.
    eapply Forall_impl; [|exact IH]. cbn. auto.
Qed.

Lemma direct_nested_ops : forall e loops, length (direct loops [e]) + length (nested loops e) = ops e.
Proof.
  intros e. induction e as [l r|f b IH] using ieq_ind'; intros loops; [reflexivity|].
  cbn [direct flat_map app length ops]. rewrite Nat.add_0_l. cbn [nested]. rewrite app_length. generalize (loops ++ [f]) as lp. intros lp.
  induction IH as [|x b H _ IHb]; [reflexivity|].
  assert (D : direct lp (x :: b) = direct lp [x] ++ direct lp b).
  { unfold direct. change (x :: b) with ([x] ++ b). rewrite flat_map_app. reflexivity. }
  rewrite D. cbn [map rev list_sum fold_right]. rewrite concat_app, !app_length. cbn [concat]. rewrite app_nil_r.
  specialize (H lp). fold (list_sum (map ops b)). lia.
Qed.
Lemma sum_cons : forall x l, list_sum (x :: l) = x + list_sum l.
Proof. reflexivity. Qed.
Lemma collect_count : forall i secs,
  length (filter (fun x => Bool.eqb (fst x) i) (collect secs)) =
  list_sum (map (fun s => if Bool.eqb (fst s) i then ops_all (snd s) else 0) secs).
Proof.
  intros i secs. unfold collect. rewrite filter_app, app_length.
  assert (X : forall (b : bool) (l : list (list fop * (list lexp * list lexp))),
    length (filter (fun x => Bool.eqb (fst x) i) (map (fun e => (b, e)) l)) = if Bool.eqb b i then length l else 0).
  { intros b l. induction l as [|x l IH]; cbn; [destruct (Bool.eqb b i); reflexivity|]. destruct (Bool.eqb b i); cbn; rewrite IH; reflexivity. }
  assert (Y : forall (g : list (list (bool * (list fop * (list lexp * list lexp))))),
    length (filter (fun x => Bool.eqb (fst x) i) (concat (rev g))) = list_sum (map (fun l => length (filter (fun x => Bool.eqb (fst x) i) l)) g)).
  { induction g as [|x g IH]; [reflexivity|]. cbn [rev map]. rewrite sum_cons, concat_app, filter_app, app_length, IH. cbn [concat]. rewrite app_nil_r.
    lia. }
  rewrite Y. clear Y. induction secs as [|[b l] secs IH]; [reflexivity|].
  cbn [flat_map map fst snd]. rewrite sum_cons, filter_app, app_length, map_app, list_sum_app, X. rewrite <- IH. clear IH.
  assert (Z0 : list_sum (map (fun l0 => length (filter (fun x => Bool.eqb (fst x) i) l0)) (map (fun e => map (fun x => (b, x)) (nested [] e)) l))
    = if Bool.eqb b i then list_sum (map (fun e => length (nested [] e)) l) else 0).
  { induction l as [|e l IH]; cbn [map]; [destruct (Bool.eqb b i); reflexivity|]. rewrite !sum_cons, IH, X. destruct (Bool.eqb b i); reflexivity. }
  rewrite Z0. destruct (Bool.eqb b i); [|lia].
  assert (W : ops_all l = length (direct [] l) + list_sum (map (fun e => length (nested [] e)) l)).
  { clear. unfold ops_all. induction l as [|e l IH]; [reflexivity|]. cbn [map]. rewrite !sum_cons.
    assert (D : direct [] (e :: l) = direct [] [e] ++ direct [] l).
    { unfold direct. change (e :: l) with ([e] ++ l). rewrite flat_map_app. reflexivity. }
    rewrite D, app_length. assert (H := direct_nested_ops e []). lia. }
  lia.
Qed.

Lemma compile_count : forall ty secs ts i, compile_equations isMin isMax ty secs = Ok ts ->
  (forall s, In s secs -> Forall balanced (snd s)) ->
  length (filter (fun t => Bool.eqb (fst t) i) ts) = written_in i secs.
Proof.
  intros ty secs ts i K B. destruct (compile_parts ty secs ts K) as (is & F & G).
  transitivity (length (filter (fun x : bool * (list fop * (list lexp * list lexp)) => Bool.eqb (fst x) i)
    (collect (map (fun s => (fst s, flat_map (explicitate ty 0) (flat_map split_sides (snd s)))) is)))).
  - clear - G. induction G as [|x y l m [Exy _] _ IH]; [reflexivity|]. cbn. rewrite Exy. destruct (Bool.eqb (fst x) i); cbn; auto.
  - rewrite collect_count. unfold written_in. rewrite map_map. cbn [fst snd]. f_equal. clear G K.
    induction F as [|s s' l m [Ef El] _ IH]; [reflexivity|]. cbn [map]. rewrite IH by (intros x Hx; apply B; right; exact Hx). f_equal.
    rewrite Ef. destruct (Bool.eqb (fst s) i); [|reflexivity].
    rewrite <- (written_splits (snd s) (snd s') El) by (apply B; left; reflexivity).
    unfold ops_all at 2. rewrite (ops_flat _ ops).
    + reflexivity.
    + apply Forall_forall. intros e _. apply explicitate_ops.
Qed.

(** ** Templates between scalars *)
Fixpoint single (e : ieq) : Prop :=
  match e with
  | IEq l r => length l = 1 /\ length r = 1
  | IFor _ b => (fix all (l : list ieq) : Prop := match l with [] => True | x :: l' => single x /\ all l' end) b
  end.
Lemma nest_single : forall fs b, Forall single b -> Forall single (nest fs b).
Proof.
  induction fs as [|f fs IH]; intros b F; [exact F|]. cbn [nest]. constructor; [|constructor]. cbn [single]. apply fix_all_forall. auto.
Qed.
Lemma split_single : forall e env l, lower_equ env e = Ok l -> balanced e -> Forall single (flat_map split_sides l).
Proof.
  intros e. induction e as [l r|is body IH|c a b _ _] using sequ_ind'; intros env l0 K B.
  - cbn in K. injection K as <-. cbn in B. cbn [flat_map split_sides]. rewrite app_nil_r, !map_length, B, Nat.eqb_refl, andb_true_r.
    destruct (Nat.eqb_spec (length r) 1) as [E1|E1]; cbn [negb].
    + constructor; [|constructor]. cbn. rewrite !map_length. lia.
    + apply Forall_forall. intros e He. rewrite <- in_rev in He. apply in_map_iff in He as (x & <- & _). cbn. auto.
  - rewrite lower_for in K. apply bind_ok in K as (fs & Kf & K). apply bind_ok in K as (b & Kb & K). injection K as <-.
    rewrite split_nest. apply nest_single. cbn [balanced] in B. apply fix_all_forall in B. clear Kf. revert b Kb.
    induction body as [|x body IHb]; intros b Kb.
    + cbn in Kb. injection Kb as <-. constructor.
    + rewrite lower_cons in Kb. apply bind_ok in Kb as (a & Ka & Kb). apply bind_ok in Kb as (r & Kr & Kb). injection Kb as <-.
      inversion IH as [|? ? IHx IHl]; subst. inversion B as [|? ? Bx Bl]; subst. rewrite flat_map_app. apply Forall_app. split.
      * apply (IHx _ _ Ka Bx).
      * apply (IHb IHl Bl r Kr).
  - discriminate K.
Qed.
Lemma splits_single : forall l l', lower_equs [] l = Ok l' -> Forall balanced l -> Forall single (flat_map split_sides l').
Proof.
  induction l as [|x l IH]; intros l' K B.
  - cbn in K. injection K as <-. constructor.
  - rewrite lower_cons in K. apply bind_ok in K as (a & Ka & K). apply bind_ok in K as (r & Kr & K). injection K as <-.
    inversion B; subst. rewrite flat_map_app. apply Forall_app. split; [apply (split_single x [] a Ka); assumption|auto].
Qed.
Lemma explicitate_single : forall ty e n, single e -> Forall single (explicitate ty n e).
Proof.
  intros ty e. induction e as [l r|f b IH] using ieq_ind'; intros n Sg.
  - assert (X : Forall single [IEq l r]) by (constructor; [exact Sg|constructor]).
    destruct l as [|l [|l2 ls]]; [exact X| |cbn [explicitate]; destruct r as [|? [|? ?]]; exact X].
    destruct r as [|r [|r2 rs]]; [exact X| |exact X]. cbn [explicitate]. destruct (ty l); [|exact X]. destruct (ty r); [|exact X].
    destruct (compatible _ _); [|exact X]. cbv zeta. apply nest_single. constructor; [cbn; auto|constructor].
  - cbn [explicitate]. constructor; [|constructor]. cbn [single] in Sg |- *. apply fix_all_forall in Sg. apply fix_all_forall.
    apply Forall_forall. intros e He. apply in_flat_map in He as (x & Hx & He). rewrite Forall_forall in IH, Sg.
    specialize (IH x Hx (S n) (Sg x Hx)). rewrite Forall_forall in IH. auto.
Qed.
Lemma nested_single : forall e loops x, single e -> In x (direct loops [e] ++ nested loops e) ->
  length (fst (snd x)) = 1 /\ length (snd (snd x)) = 1.
Proof.
  intros e. induction e as [l r|f b IH] using ieq_ind'; intros loops x Sg Hx.
  - destruct Hx as [<-|[]]. exact Sg.
  - cbn [direct flat_map app nested] in Hx. cbn [single] in Sg. apply fix_all_forall in Sg. rewrite Forall_forall in IH, Sg.
    apply in_app_iff in Hx as [Hx|Hx].
    + apply direct_in in Hx as (l & r & Hb & ->). apply (Sg _ Hb).
    + apply in_concat in Hx as (y & Hy & Hx). rewrite <- in_rev in Hy. apply in_map_iff in Hy as (e & <- & He).
      apply (IH e He (loops ++ [f]) x (Sg e He)). apply in_app_iff. right. exact Hx.
Qed.
Lemma collect_in : forall i x secs, In (i, x) (collect secs) ->
  exists l e, In (i, l) secs /\ In e l /\ In x (direct [] [e] ++ nested [] e).
Proof.
  intros i x secs Hx. unfold collect in Hx. apply in_app_iff in Hx as [Hx|Hx].
  - apply in_flat_map in Hx as ([j l] & Hl & Hx). cbn in Hx. apply in_map_iff in Hx as (y & Ey & Hy). injection Ey as -> ->.
    apply direct_in in Hy as (a & b & Hb & ->). exists l, (IEq a b). split; [exact Hl|]. split; [exact Hb|]. left. reflexivity.
  - apply in_concat in Hx as (y & Hy & Hx). rewrite <- in_rev in Hy. apply in_flat_map in Hy as ([j l] & Hl & Hy). cbn in Hy.
    apply in_map_iff in Hy as (e & <- & He). apply in_map_iff in Hx as (z & Ez & Hz). injection Ez as -> ->.
    exists l, e. split; [exact Hl|]. split; [exact He|]. apply in_app_iff. auto.
Qed.

Section STATIC.
Context {E : Type} (M : solution E).
Variable ty : lexp -> option (list (option Z)).
Hypothesis types : right_types M ty.
Hypothesis static : static_types M ty.

Definition scalars (v w : val E) : Prop := (exists a, v = VS a) /\ exists b, w = VS b.

Lemma static_compatible : forall d d' dims, Forall (fun o => o <> None) d -> Forall (fun o => o <> None) d' ->
  Forall2 (fun o n => match o with Some m => n = m | None => True end) d dims ->
  Forall2 (fun o n => match o with Some m => n = m | None => True end) d' dims -> compatible d d' = true.
Proof.
  induction d as [|o d IH]; intros d' dims S1 S2 F F'; inversion F; subst; inversion F'; subst; [reflexivity|].
  inversion S1; subst. inversion S2; subst. destruct o as [a|]; [|congruence].
  match goal with |- compatible _ (?o :: _) = _ => destruct o as [b|]; [|congruence] end.
  subst. cbn. rewrite Z.eqb_refl. cbn. eauto.
Qed.

Lemma explicitate_scalar : forall e p, below_eq (length p) e -> single e -> isat M same_shape p e ->
  isat_all M scalars p (explicitate ty (length p) e).
Proof.
  destruct static as [St1 St2].
  intros e. induction e as [l r|f b IH] using ieq_ind'; intros p B Sg S.
  - destruct Sg as [L1 L2]. destruct l as [|l [|l2 ls]]; try discriminate. destruct r as [|r [|r2 rs]]; try discriminate.
    cbn in S. inversion S as [|? ? ? ? S1 _]; subst.
    cbn [explicitate]. destruct (ty l) as [d|] eqn:Tl.
    + destruct (types l d p Tl) as (dims & fl & El & Fl). rewrite El in S1. destruct (ty r) as [d'|] eqn:Tr.
      * destruct (types r d' p Tr) as (dims' & fr & Er & Fr). rewrite Er in S1. cbn in S1. subst dims'.
        assert (C := static_compatible d d' dims (St2 l d Tl) (St2 r d' Tr) Fl Fr). rewrite C. cbv zeta.
        rewrite (nest_dims M scalars d d' p _ C dims Fl Fr).
        cbn in B. destruct B as [Bl Br]. inversion Bl as [|? ? Bl1 _]; subst. inversion Br as [|? ? Br1 _]; subst.
        intros idx K. cbn. rewrite !below_val, El, Er by assumption. split; [|exact I]. constructor; [|constructor]. split; cbn; eauto.
      * destruct (St1 r p Tr) as (a & Ea). rewrite Ea in S1. destruct S1.
    + destruct (St1 l p Tl) as (a & Ea). rewrite Ea in S1. cbn in S1. cbn. rewrite Ea. split; [|exact I]. constructor; [|constructor].
      split; [eauto|]. destruct (lval M p r) as [b|]; [eauto|destruct S1].
  - cbn [explicitate isat_all]. split; [|exact I]. rewrite !isat_for. cbn [below_eq] in B. apply below_eq_all in B. rewrite isat_for in S.
    cbn [single] in Sg. apply fix_all_forall in Sg. intros v T. specialize (S v T).
    apply isat_all_in. intros e He. apply in_flat_map in He as (x & Hx & He). rewrite Forall_forall in IH, B, Sg. rewrite isat_all_in in S.
    specialize (IH x Hx (p ++ [v])). rewrite app_length in IH. cbn [length] in IH. rewrite Nat.add_1_r in IH.
    specialize (IH (B x Hx) (Sg x Hx) (S x Hx)). rewrite isat_all_in in IH. auto.
Qed.

Lemma compile_scalar : forall secs ts i t p, compile_equations isMin isMax ty secs = Ok ts -> well_sized M secs ->
  (forall s, In s secs -> Forall balanced (snd s)) -> In (i, t) ts -> iteration_of t p ->
  exists l r a b, ft_lhs t = [l] /\ ft_rhs t = [r] /\ lval M p l = VS a /\ lval M p r = VS b.
Proof.
  intros secs ts i t p K W Bs Ht Hp. destruct (compile_parts ty secs ts K) as (is & F & G).
  set (final := map (fun s => (fst s, flat_map (explicitate ty 0) (flat_map split_sides (snd s)))) is) in *.
  assert (X : forall l, In (i, l) final -> isat_all M scalars [] l /\ Forall single l).
  { intros l Hl. unfold final in Hl. apply in_map_iff in Hl as ([j l1] & Ej & H1). injection Ej as -> <-. cbn [snd].
    destruct (forall2_in_r _ _ _ _ F H1) as ([j l0] & H0 & Ej & El). cbn in Ej, El. subst j.
    assert (Sh : isat_all M same_shape [] (flat_map split_sides l1)).
    { rewrite isat_flat; [|apply Forall_forall; intros e _; apply split_isat].
      apply (lower_equs_says M same_shape l0 l1 El). intros e He. apply (W i l0 e H0 He). }
    assert (Be : Forall (below_eq 0) (flat_map split_sides l1)).
    { apply Forall_forall. intros e He. apply in_flat_map in He as (x & Hx & He). assert (Q := lower_equs_below l0 l1 El).
      rewrite Forall_forall in Q. assert (Q2 := split_below x 0 (Q x Hx)). rewrite Forall_forall in Q2. auto. }
    assert (Sg := splits_single l0 l1 El (Bs _ H0)). rewrite Forall_forall in Be, Sg. rewrite isat_all_in in Sh.
    split.
    - apply isat_all_in. intros e He. apply in_flat_map in He as (x & Hx & He).
      assert (Q := explicitate_scalar x [] (Be x Hx) (Sg x Hx) (Sh x Hx)). rewrite isat_all_in in Q. auto.
    - apply Forall_forall. intros e He. apply in_flat_map in He as (x & Hx & He).
      assert (Q := explicitate_single ty x 0 (Sg x Hx)). rewrite Forall_forall in Q. auto. }
  destruct (forall2_in_r _ _ _ _ G Ht) as ([j e] & He & Ej & Et). cbn in Ej, Et. subst j.
  destruct (template_space e t Et) as (_ & El & Er & S & _).
  assert (Q := proj2 (collect_isat M scalars i final) (fun l Hl => proj1 (X l Hl)) e He p (proj1 (S p) Hp)).
  destruct (collect_in i e final He) as (l & x & Hl & Hx & Hd). destruct (X l Hl) as [_ Sg]. rewrite Forall_forall in Sg.
  destruct (nested_single x [] e (Sg x Hx) Hd) as [N1 N2]. rewrite <- El in N1, Q. rewrite <- Er in N2, Q.
  destruct (ft_lhs t) as [|a [|? ?]]; try discriminate. destruct (ft_rhs t) as [|b [|? ?]]; try discriminate.
  inversion Q as [|? ? ? ? [[u Eu] [w Ew]] _]; subst. exists a, b, u, w. auto.
Qed.
End STATIC.

(** ** What is compiled *)
Definition good_loop (f : fop) : Prop := (0 < fo_step f)%Z /\ (fo_from f <= fo_to f)%Z.
Fixpoint good (e : ieq) : Prop :=
  match e with
  | IEq _ _ => True
  | IFor f b => good_loop f /\ (fix all (l : list ieq) : Prop := match l with [] => True | x :: l' => good x /\ all l' end) b
  end.
Lemma nest_good : forall fs b, Forall good_loop fs -> Forall good b -> Forall good (nest fs b).
Proof.
  induction fs as [|f fs IH]; intros b F G; [exact G|]. inversion F; subst. cbn [nest]. constructor; [|constructor]. cbn [good]. split; [assumption|].
  apply fix_all_forall. auto.
Qed.
Lemma lower_good : forall e env, compilable e -> exists l, lower_equ env e = Ok l /\ Forall good l.
Proof.
  intros e. induction e as [l r|is body IH|c a b _ _] using sequ_ind'; intros env C.
  - eexists. split; [reflexivity|]. constructor; [exact I|constructor].
  - rewrite lower_for. cbn [compilable] in C. destruct C as [C1 C2]. apply fix_all_forall in C2.
    assert (X : exists fs, map_res (fun i => lower_range (snd i)) is = Ok fs /\ Forall good_loop fs).
    { clear - C1. induction C1 as [|[x [a s b]] is (za & zs & zb & Ha & Hb & Hs & P1 & P2) _ (fs & Ef & Gf)]; [exists []; split; [reflexivity|constructor]|].
      cbn [map_res snd fr_begin fr_step fr_end] in *. rewrite Ef. unfold lower_range. cbn [fr_begin fr_step fr_end].
      destruct a as [a| |]; try contradiction. destruct b as [b| |]; try contradiction. cbn in Ha, Hb. subst.
      destruct s as [[s| |]|]; try contradiction; cbn in Hs; subst; eexists; (split; [reflexivity|]); constructor; auto; split; cbn; lia. }
    destruct X as (fs & -> & Gf). cbn [bind].
    assert (Y : exists b, lower_equs (env ++ map fst is) body = Ok b /\ Forall good b).
    { clear - IH C2. induction IH as [|x body H _ IHb]; [exists []; split; [reflexivity|constructor]|]. inversion C2; subst.
      destruct (H (env ++ map fst is)) as (a & Ea & Ga); [assumption|]. destruct IHb as (r & Er & Gr); [assumption|].
      rewrite lower_cons, Ea, Er. eexists. split; [reflexivity|]. apply Forall_app. auto. }
    destruct Y as (b & -> & Gb). eexists. split; [reflexivity|]. apply nest_good; auto.
  - destruct C.
Qed.
Lemma lowers_good : forall l, Forall compilable l -> exists l', lower_equs [] l = Ok l' /\ Forall good l'.
Proof.
  intros l F. induction F as [|x l H _ (r & Er & Gr)]; [exists []; split; [reflexivity|constructor]|].
  destruct (lower_good x [] H) as (a & Ea & Ga). rewrite lower_cons, Ea, Er. eexists. split; [reflexivity|]. apply Forall_app. auto.
Qed.
Lemma split_good : forall e, good e -> Forall good (split_sides e).
Proof.
  intros e. induction e as [l r|f b IH] using ieq_ind'; intros G.
  - cbn. destruct (negb (Nat.eqb (length l) 1) && Nat.eqb (length l) (length r)).
    + apply Forall_forall. intros e He. rewrite <- in_rev in He. apply in_map_iff in He as (x & <- & _). exact I.
    + constructor; [exact I|constructor].
  - cbn [split_sides good] in *. destruct G as [G1 G2]. apply fix_all_forall in G2. constructor; [|constructor]. cbn [good]. split; [exact G1|]. apply fix_all_forall.
    apply Forall_forall. intros e He. apply in_flat_map in He as (x & Hx & He). rewrite Forall_forall in IH, G2.
    specialize (IH x Hx (G2 x Hx)). rewrite Forall_forall in IH. auto.
Qed.
Lemma explicitate_good : forall ty, (forall e d n, ty e = Some d -> In (Some n) d -> (1 <= n)%Z) ->
  forall e n, good e -> Forall good (explicitate ty n e).
Proof.
  intros ty T e. induction e as [l r|f b IH] using ieq_ind'; intros n G.
  - assert (X : Forall good [IEq l r]) by (constructor; [exact I|constructor]).
    destruct l as [|l [|l2 ls]]; [exact X| |cbn [explicitate]; destruct r as [|? [|? ?]]; exact X].
    destruct r as [|r [|r2 rs]]; [exact X| |exact X]. cbn [explicitate]. destruct (ty l) as [d|] eqn:Tl; [|exact X]. destruct (ty r) as [d'|] eqn:Tr; [|exact X].
    destruct (compatible _ _); [|exact X]. cbv zeta. apply nest_good; [|constructor; [exact I|constructor]].
    assert (T1 := fun n => T l d n Tl). assert (T2 := fun n => T r d' n Tr). clear - T1 T2. revert d' T2.
    induction d as [|o d IH]; intros [|o' d'] T2; cbn; try constructor; destruct o as [a|]; try constructor.
    + split; cbn; [lia|]. specialize (T1 a (or_introl eq_refl)). lia.
    + apply IH; [intros n H; apply T1; right; exact H|intros n H; apply T2; right; exact H].
    + destruct o' as [b|]; constructor.
      * split; cbn; [lia|]. specialize (T2 b (or_introl eq_refl)). lia.
      * apply IH; [intros n H; apply T1; right; exact H|intros n H; apply T2; right; exact H].
  - cbn [explicitate good] in *. destruct G as [G1 G2]. apply fix_all_forall in G2. constructor; [|constructor]. cbn [good]. split; [exact G1|]. apply fix_all_forall.
    apply Forall_forall. intros e He. apply in_flat_map in He as (x & Hx & He). rewrite Forall_forall in IH, G2.
    specialize (IH x Hx (S n) (G2 x Hx)). rewrite Forall_forall in IH. auto.
Qed.
Lemma nested_good : forall e loops x, good e -> Forall good_loop loops -> In x (direct loops [e] ++ nested loops e) -> Forall good_loop (fst x).
Proof.
  intros e. induction e as [l r|f b IH] using ieq_ind'; intros loops x G L Hx.
  - destruct Hx as [<-|[]]. exact L.
  - cbn [direct flat_map app nested] in Hx. cbn [good] in G. destruct G as [G1 G2]. apply fix_all_forall in G2. rewrite Forall_forall in IH, G2.
    assert (L' : Forall good_loop (loops ++ [f])) by (apply Forall_app; split; [exact L|constructor; [exact G1|constructor]]).
    apply in_app_iff in Hx as [Hx|Hx].
    + apply direct_in in Hx as (l & r & Hb & ->). exact L'.
    + apply in_concat in Hx as (y & Hy & Hx). rewrite <- in_rev in Hy. apply in_map_iff in Hy as (e & <- & He).
      apply (IH e He (loops ++ [f]) x (G2 e He) L'). apply in_app_iff. right. exact Hx.
Qed.

Lemma step_total : forall fuel index to step, (0 < step)%Z -> Z.to_nat (to + 1 - index) <= fuel -> exists rs, step_ranges fuel index to step = Ok rs.
Proof.
  induction fuel as [|fuel IH]; intros index to step P L; cbn; destruct (Z.ltb_spec index (to + 1)) as [H|H]; eauto; [lia|].
  destruct (IH (index + step)%Z to step P) as (rs & ->); [lia|]. eexists. reflexivity.
Qed.
Lemma dim_total : forall f, good_loop f -> exists rs, dim_ranges f = Ok rs /\ rs <> [].
Proof.
  intros f [P L]. unfold dim_ranges. destruct (Z.eqb_spec (fo_step f) 1).
  - assert (X : Z.ltb (fo_from f) (fo_to f + 1) = true) by (apply Z.ltb_lt; lia). rewrite X. eexists. split; [reflexivity|discriminate].
  - destruct (step_total (Z.to_nat (fo_to f + 1 - fo_from f)) (fo_from f) (fo_to f) (fo_step f) P (le_n _)) as (rs & E). exists rs. split; [exact E|].
    intros ->. destruct (step_ok _ _ _ _ _ P E) as (A & _ & _). destruct (proj2 (A (fo_from f))) as (r & [] & _). exists 0. lia.
Qed.
Lemma combinations_total : forall dims, dims <> [] -> Forall (fun rs : list range => rs <> []) dims -> exists b, combinations dims = Ok b /\ b <> [].
Proof.
  induction dims as [|rs dims IH]; intros N F; [congruence|]. inversion F as [|? ? F1 F2]; subst. cbn [combinations]. destruct dims as [|rs2 dims].
  - eexists. split; [reflexivity|]. destruct rs; [congruence|discriminate].
  - destruct IH as (sub & -> & Ns); [discriminate|exact F2|]. destruct rs as [|r rs]; [congruence|]. eexists. split; [reflexivity|].
    destruct sub; [congruence|discriminate].
Qed.
Lemma template_total : forall e, Forall good_loop (fst e) -> exists t, create_template isMin isMax e = Ok t.
Proof.
  intros [loops lr] G. unfold create_template. cbn [fst snd] in *. destruct loops as [|f loops].
  - cbn. eauto.
  - cbn [iteration_space].
    assert (X : exists dims, map_res dim_ranges (f :: loops) = Ok dims /\ Forall (fun rs : list range => rs <> []) dims /\ length dims = length (f :: loops)).
    { clear - G. induction G as [|g l H _ (dims & E & F & L)]; [exists []; cbn; auto|]. destruct (dim_total g H) as (rs & Er & N).
      cbn [map_res]. rewrite Er, E. cbn [bind]. eexists. split; [reflexivity|]. split; [constructor; auto|cbn; auto]. }
    destruct X as (dims & Ed & Nd & Ld). rewrite Ed. cbn [bind].
    destruct (combinations_total dims) as (boxes & Eb & Nb); [destruct dims; [discriminate Ld|discriminate]|exact Nd|]. rewrite Eb. cbn [bind].
    destruct (combinations_ok dims boxes Eb Nb) as (A & B & C & D). apply map_res_forall2 in Ed.
    assert (Bx : Forall (box_of (length (f :: loops))) boxes).
    { rewrite <- Ld. apply C. clear - Ed Nd. induction Ed; [constructor|]. inversion Nd; subst. constructor; [eapply dim_ok; eassumption|auto]. }
    destruct (of_boxes (length (f :: loops)) boxes ltac:(cbn; lia) Bx) as (t & Et & _). rewrite Et. cbn [bind].
    destruct (IndexSetOpsProofs.build_ok (length (f :: loops)) isMin isMax isMin_pos isMax_min boxes t Bx Et) as (W & S & _).
    assert (R : is_rank t = length (f :: loops)).
    { destruct (rt_root mdrange t) as [r|] eqn:Er; [apply (wf_rank _ _ _ t r W Er)|].
      exfalso. destruct boxes as [|b boxes]; [congruence|]. inversion Bx as [|? ? [[_ Hb] _] _]; subst.
      assert (P : exists p, in_box p b).
      { clear - Hb. induction Hb as [|r l H _ (p & Hp)]; [exists []; constructor|]. exists (rbegin r :: p). constructor; [|exact Hp].
        unfold in_range, range_ok in *. lia. }
      destruct P as (p & Hp). destruct (proj2 (S p)) as (c & Hc & _); [exists b; split; [left; reflexivity|exact Hp]|].
      unfold is_ranges in Hc. rewrite Er in Hc. destruct Hc. }
    rewrite R, Nat.eqb_refl. cbn. eauto.
Qed.
Lemma compile_total : forall ty secs, (forall e d n, ty e = Some d -> In (Some n) d -> (1 <= n)%Z) ->
  (forall s, In s secs -> Forall compilable (snd s)) -> exists ts, compile_equations isMin isMax ty secs = Ok ts.
Proof.
  intros ty secs T C. unfold compile_equations.
  assert (X : exists is, map_res (fun s => b <- lower_equs [] (snd s) ;; Ok (fst s, b)) secs = Ok is /\ Forall (fun s : bool * list ieq => Forall good (snd s)) is).
  { clear T. induction secs as [|s secs IH]; [exists []; split; [reflexivity|constructor]|].
    destruct (lowers_good (snd s)) as (l & El & Gl); [apply C; left; reflexivity|].
    destruct IH as (is & Ei & Gi); [intros x Hx; apply C; right; exact Hx|]. cbn [map_res]. rewrite El. cbn [bind]. rewrite Ei. cbn [bind].
    eexists. split; [reflexivity|]. constructor; auto. }
  destruct X as (is & -> & G). cbn [bind]. unfold create_templates.
  set (final := map (fun s => (fst s, flat_map (explicitate ty 0) (flat_map split_sides (snd s)))) is).
  assert (Y : forall x, In x (collect final) -> Forall good_loop (fst (snd x))).
  { intros [i x] Hx. destruct (collect_in i x final Hx) as (l & e & Hl & He & Hd). apply (nested_good e [] x); [|constructor|exact Hd].
    unfold final in Hl. apply in_map_iff in Hl as (s & Es & Hs). injection Es as _ <-. apply in_flat_map in He as (a & Ha & He).
    apply in_flat_map in Ha as (b & Hb & Ha). rewrite Forall_forall in G. specialize (G s Hs). rewrite Forall_forall in G.
    assert (Q := split_good b (G b Hb)). rewrite Forall_forall in Q. assert (Q2 := explicitate_good ty T a 0 (Q a Ha)). rewrite Forall_forall in Q2. auto. }
  induction (collect final) as [|x l IH]; [exists []; reflexivity|]. cbn [map_res].
  destruct (template_total (snd x)) as (t & ->); [apply Y; left; reflexivity|]. cbn [bind].
  destruct IH as (ts & ->); [intros y Hy; apply Y; right; exact Hy|]. eexists. reflexivity.
Qed.
