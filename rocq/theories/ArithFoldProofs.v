(** Proofs about the folding of constants and the simplifications. *)
From Coq Require Import ZArith List Bool SpecFloat Lia ZifyBool Relations.
From Verif Require Import Result ArithModel ArithSpec FloatFacts ArithProofs.
Import ListNotations.
Local Open Scope Z_scope.

Lemma int64_ok : forall z, in_range z -> int64 z = Ok z.
Proof. intros z H. unfold in_range in H. unfold int64. now replace ((- 2 ^ 63 <=? z) && (z <? 2 ^ 63)) with true by lia. Qed.
Lemma on_ints_ok : forall f x y v, an_integer (f x y) = Some v -> exists c, on_ints TInt f x y = Ok c /\ mean_const c = Some v.
Proof.
  intros f x y v H. apply an_integer_Some in H. destruct H as [R ->]. exists (AI (f x y)). unfold on_ints. now rewrite int64_ok.
Qed.
Lemma neg_one : forall f, is_double f -> rmul (of_Z (-1)) f = SFopp f.
Proof. intros f V. exact (proj2 (mul_unit (-1) f V) eq_refl). Qed.

(** Constants and values. *)
Lemma const_kind : forall a t, lang_const a = Some t -> exists v, mean_const a = Some v /\ attr_ty a = ity t /\
  match t, a, v with
  | LB, AB b, VB b' => b = b'
  | LI, AI z, VI z' => z = z'
  | LR, AR f, VR f' => f = f'
  | _, _, _ => False
  end.
Proof. intros [] t H; cbn in H; inversion H; subst; cbn; eexists; repeat split. Qed.

Lemma scalar_zero_int : forall z, in_range z -> SFeqb (of_Z z) (of_Z 0) = (z =? 0).
Proof.
  intros z R. apply ofZ_zero. unfold in_range in R. lia.
Qed.

Section Fold.
Variable lib : mathlib.
Variable env : nat -> value.
Let pow := lib_pow lib.

Lemma fold_un_ok : forall o a t v, lang_type (Un o (Cst a)) = Some t -> well_valued env (Cst a) ->
  meaning pow env (Un o (Cst a)) = Some v ->
  exists c, fold_exp lib (Un o (Cst a)) = Ok (Some (Cst c)) /\ mean_const c = Some v.
Proof.
  intros o a t v L W M. destruct o, a as [b|z|f| |]; cbn in L; try discriminate; cbn in M.
  - apply an_integer_Some in M. destruct M as [R ->]. exists (AI (- z)).
    unfold fold_exp. cbn [type_of bind infer_un is_scalar attr_ty known fold_un fold_neg fold1 int_like int_value some_attr].
    unfold some_attr. replace (-1 * z) with (- z) by lia. rewrite int64_ok by exact R. split; reflexivity.
  - injection M as <-. exists (AR (rmul (of_Z (-1)) f)). split; [reflexivity|]. cbn [mean_const]. rewrite neg_one; [reflexivity|exact W].
  - injection M as <-. exists (AB (negb b)). split; [|reflexivity]. destruct b; reflexivity.
Qed.

Lemma fold_cast_ok : forall u a t v, lang_type (CastE u (Cst a)) = Some t ->
  meaning pow env (CastE u (Cst a)) = Some v ->
  exists c, fold_exp lib (CastE u (Cst a)) = Ok (Some (Cst c)) /\ mean_const c = Some v.
Proof.
  intros u a t v L M. destruct u, a as [b|z|f| |]; cbn in L; try discriminate; cbn in M; injection M as <-.
  - exists (AB b). split; [|reflexivity]. destruct b; reflexivity.
  - exists (AI z). split; reflexivity.
  - exists (AR (nearest z)). split; reflexivity.
  - exists (AR f). split; reflexivity.
Qed.

Lemma fold_mul_zero : forall a, well_valued env (Cst a) -> lang_const a = Some LI \/ lang_const a = Some LR ->
  is_zero_attr (Some a) = true -> zero_const (Cst a).
Proof.
  intros a W K Z. destruct a as [b|z|f| |]; cbn in K; try (destruct K; discriminate).
  - cbn in Z, W. unfold scalar_is, scalar_value in Z. cbn in Z. rewrite scalar_zero_int in Z by exact W. apply Z.eqb_eq in Z. now subst.
  - cbn in Z. unfold scalar_is, scalar_value in Z. cbn in Z.
    destruct f as [s|[]| |[] m e]; cbn in Z; try discriminate; exact I.
Qed.

Lemma cmp_int_ok : forall t x y, SFeqb x y = match SFcompare x y with Some Datatypes.Eq => true | _ => false end /\
  attr_of_int TBool (bool_int t) = Ok (AB t).
Proof. intros t x y. split; [unfold SFeqb; now destruct (SFcompare x y) as [[]|]|now destruct t]. Qed.

Lemma fold_bin_ok : forall o a b t v, lang_type (Bin o (Cst a) (Cst b)) = Some t ->
  well_valued env (Cst a) -> well_valued env (Cst b) -> exact_fold (Bin o (Cst a) (Cst b)) ->
  meaning pow env (Bin o (Cst a) (Cst b)) = Some v ->
  exists c, fold_exp lib (Bin o (Cst a) (Cst b)) = Ok (Some (Cst c)) /\ mean_const c = Some v.
Proof.
  intros o a b t v L Wa Wb X M.
  assert (Gen : forall c, fold_bin lib o (ity t) (Some a) (Some b) = Ok (Some c) -> mean_const c = Some v -> 
    type_of (Bin o (Cst a) (Cst b)) = Ok (ity t) ->
    exists c, fold_exp lib (Bin o (Cst a) (Cst b)) = Ok (Some (Cst c)) /\ mean_const c = Some v).
  { intros c Hc Mc Ht. exists c. unfold fold_exp. rewrite Ht. cbn [bind known]. rewrite Hc. now split. }
  assert (Ht : type_of (Bin o (Cst a) (Cst b)) = Ok (ity t)).
  { destruct o, a, b; cbn in L; try discriminate; injection L as <-; try reflexivity; destruct X as [X|X]; now elim X. }
  assert (G2 : forall c, fold_bin lib o (ity t) (Some a) (Some b) = some_attr (Ok c) -> mean_const c = Some v ->
    exists c, fold_exp lib (Bin o (Cst a) (Cst b)) = Ok (Some (Cst c)) /\ mean_const c = Some v).
  { intros c Hc Mc. apply (Gen c); auto. }
  clear Gen Ht.
  destruct o; (destruct a as [x|x|x| |]; cbn in L; try discriminate); (destruct b as [y|y|y| |]; cbn in L; try discriminate);
    injection L as <-; cbn in M;
    try (destruct X as [X|X]; now elim X).
  all: try (apply on_ints_ok in M; destruct M as (c & Hc & Mc); apply (G2 c); [|exact Mc]; rewrite <- Hc; reflexivity).
  all: try (injection M as <-).
  all: try (eapply G2; [reflexivity|reflexivity]).
  (* products with a possible zero *)
  1: { apply an_integer_Some in M. destruct M as [R ->]. 
       apply (G2 (AI (x * y))); [|reflexivity]. cbn [fold_bin ity]. unfold fold_mul.
       destruct (is_zero_attr (Some (AI x))) eqn:Zx.
       { apply fold_mul_zero in Zx; [|exact Wa|now left]. cbn in Zx. destruct x; try contradiction. reflexivity. }
       destruct (is_zero_attr (Some (AI y))) eqn:Zy.
       { apply fold_mul_zero in Zy; [|exact Wb|now left]. cbn in Zy. destruct y; try contradiction. now rewrite Z.mul_0_r. }
       cbn [andb]. unfold fold_mul_ew, fold2. cbn. unfold on_ints. now rewrite int64_ok. }
  all: try match goal with |- context [Bin Mul (Cst ?a) (Cst ?b)] =>
    destruct X as [X|[Xa Xb]]; [discriminate X|];
    (destruct (is_zero_attr (Some a)) eqn:Za; [apply fold_mul_zero in Za; [contradiction|exact Wa|cbn; auto]|]);
    (destruct (is_zero_attr (Some b)) eqn:Zb; [apply fold_mul_zero in Zb; [contradiction|exact Wb|cbn; auto]|]);
    eapply G2; [cbn [fold_bin ity]; unfold fold_mul; rewrite Za, Zb; reflexivity|reflexivity] end.
  (* comparisons and logic *)
  all: match goal with |- context [Bin ?o (Cst ?a) (Cst ?b)] =>
    match type of G2 with context [mean_const _ = Some (VB ?r)] => apply (G2 (AB r)); [|reflexivity] end end.
  all: try (destruct x, y; reflexivity).
  all: cbn [fold_bin ity]; unfold fold_eq, fold_ne, fold_gt, fold_ge, fold_lt, fold_le, fold_cmp, fold2; cbn [is_scalar attr_ty int_like float_like andb int_value float_value];
    f_equal; 
    unfold SFeqb, SFltb, SFleb, nearest, of_Z;
    match goal with
    | |- context [SFcompare ?p ?q] => try rewrite (SFcompare_swap p q); destruct (SFcompare p q) as [[]|]; reflexivity
    | |- _ => idtac
    end.
  all: rewrite (proj2 (cmp_int_ok _ rzero rzero)); do 2 f_equal; destruct (x ?= y) eqn:E;
    rewrite ?Z.compare_eq_iff, ?Z.compare_lt_iff, ?Z.compare_gt_iff in E; lia.
Qed.

Hypothesis pow_double : forall x y, is_double x -> is_double y -> is_double (pow x y).

Lemma nearest_double : forall z, is_double (nearest z).
Proof. intros. apply normalize_valid. Qed.

(** Values have the type of their expression. *)
Lemma as_real_double : forall t v x, has_type t v -> as_real v = Some x -> is_double x.
Proof. intros [] [b|z|f] x H E; cbn in H, E; try contradiction; try discriminate; injection E as <-; [apply nearest_double|exact H]. Qed.
Lemma an_integer_type : forall z v, an_integer z = Some v -> has_type LI v.
Proof. intros z v H. apply an_integer_Some in H. destruct H as [R ->]. exact R. Qed.
Lemma both_real_type : forall f, (forall x y, is_double x -> is_double y -> is_double (f x y)) ->
  forall ta tb a b v, has_type ta a -> has_type tb b -> both_real f a b = Some v -> has_type LR v.
Proof.
  intros f Hf ta tb a b v Ha Hb E. unfold both_real in E. destruct (as_real a) as [x|] eqn:Ra; [|discriminate].
  destruct (as_real b) as [y|] eqn:Rb; [|discriminate]. injection E as <-. cbn.
  apply Hf; [apply (as_real_double ta a)|apply (as_real_double tb b)]; assumption.
Qed.
Lemma numbers_type : forall fi ff, (forall x y, is_double x -> is_double y -> is_double (ff x y)) ->
  forall ta tb t a b v, join ta tb = Some t -> has_type ta a -> has_type tb b -> numbers fi ff a b = Some v -> has_type t v.
Proof.
  intros fi ff Hf ta tb t a b v J Ha Hb E.
  destruct ta, tb; cbn in J; try discriminate; injection J as <-; destruct a as [|x|x]; cbn in Ha; try contradiction;
    destruct b as [|y|y]; cbn in Hb; try contradiction; cbn [numbers] in E.
  - now apply (an_integer_type _ _ E).
  - now apply (both_real_type ff Hf LI LR (VI x) (VR y)).
  - now apply (both_real_type ff Hf LR LI (VR x) (VI y)).
  - now apply (both_real_type ff Hf LR LR (VR x) (VR y)).
Qed.
Lemma mean_bin_type : forall o ta tb t a b v, lang_bin o ta tb = Some t -> has_type ta a -> has_type tb b ->
  mean_bin pow o a b = Some v -> has_type t v.
Proof.
  intros o ta tb t a b v L Ha Hb E. pose proof (lang_join _ _ _ _ L) as J.
  destruct o; cbn [mean_bin] in E.
  1,2: now apply (numbers_type Z.add _ add_valid ta tb t a b).
  1,2: now apply (numbers_type Z.sub _ sub_valid ta tb t a b).
  1,2: now apply (numbers_type Z.mul _ mul_valid ta tb t a b).
  1,2: destruct J as (-> & _); now apply (both_real_type _ div_valid ta tb a b).
  1,2: destruct J as (-> & _); now apply (both_real_type _ pow_double ta tb a b).
  1-6: destruct J as (-> & _); unfold compared in E; destruct (order a b); [injection E as <-; exact I|discriminate].
  1,2: destruct J as (-> & -> & ->); destruct a, b; cbn in Ha, Hb, E; try contradiction; injection E as <-; exact I.
Qed.
Lemma meaning_type : forall e t v, lang_type e = Some t -> well_valued env e -> meaning pow env e = Some v -> has_type t v.
Proof.
  induction e as [a|n u|o a IHa|o a IHa b IHb|c IHc a IHa b IHb|u a IHa]; intros t v L W M.
  - destruct a; cbn in *; try discriminate; injection L as <-; injection M as <-; auto.
  - cbn in *. rewrite L in W. now injection M as <-.
  - cbn in L, W, M. destruct (lang_type a) as [ta|]; [|discriminate]. destruct (meaning pow env a) as [w|]; [|discriminate].
    specialize (IHa _ _ eq_refl W eq_refl). destruct o, ta, w; cbn in L, M, IHa; try discriminate; try contradiction; injection L as <-.
    + now apply (an_integer_type _ _ M).
    + injection M as <-. cbn. now apply opp_valid.
    + injection M as <-. exact I.
  - cbn in L, W, M. destruct (lang_type a) as [ta|]; [|discriminate]. destruct (lang_type b) as [tb|]; [|discriminate].
    destruct (meaning pow env a) as [va|]; [|discriminate]. destruct (meaning pow env b) as [vb|]; [|discriminate].
    apply (mean_bin_type o ta tb t va vb); [exact L|apply IHa|apply IHb|exact M]; try reflexivity; apply W.
  - cbn in W. cbn [meaning] in M. rewrite L in M. destruct (meaning pow env c) as [[k| |]|]; try discriminate.
    cbn in L. destruct (lang_type c) as [[]|]; try discriminate. destruct (lang_type a) as [ta|]; [|discriminate]. destruct (lang_type b) as [tb|]; [|discriminate].
    destruct W as (_ & Wa & Wb).
    assert (exists s w, meaning pow env (if k then a else b) = Some w /\ has_type s w /\ at_type t w = Some v) as (s & w & _ & Hs & A).
    { destruct k.
      - destruct (meaning pow env a) as [w|] eqn:E; [|discriminate]. exists ta, w. split; [reflexivity|]. split; [now apply IHa|exact M].
      - destruct (meaning pow env b) as [w|] eqn:E; [|discriminate]. exists tb, w. split; [reflexivity|]. split; [now apply IHb|exact M]. }
    clear - Hs A. destruct s, w, t; cbn in Hs, A; try contradiction; try discriminate; injection A as <-; cbn; auto. apply nearest_double.
  - cbn in W. cbn in L, M. destruct (lang_type a) as [ta|]; [|discriminate]. destruct (meaning pow env a) as [w|]; [|discriminate].
    specialize (IHa _ _ eq_refl W eq_refl).
    destruct ta, u, w; cbn in L, M, IHa; try discriminate; try contradiction; injection L as <-; injection M as <-; cbn; auto. apply nearest_double.
Qed.

Lemma same_types_type : forall e t, lang_type e = Some t -> same_types e -> type_of e = Ok (ity t).
Proof.
  induction e as [a|n u|o a IHa|o a IHa b IHb|c IHc a IHa b IHb|u a IHa]; intros t L C; cbn in L, C |- *.
  - destruct a; cbn in L; inversion L; reflexivity.
  - apply lang_ty_ity in L. now subst.
  - destruct (lang_type a) as [ta|]; [|discriminate]. rewrite (IHa _ eq_refl C). cbn.
    destruct o, ta; cbn in L; inversion L; reflexivity.
  - destruct (lang_type a) as [ta|]; [|discriminate]. destruct (lang_type b) as [tb|]; [|discriminate].
    destruct C as (Ca & Cb & Co). rewrite (IHa _ eq_refl Ca), (IHb _ eq_refl Cb). cbn.
    destruct o, ta, tb; cbn in L; inversion L; try reflexivity; destruct Co as [Co|Co]; now elim Co.
  - destruct (lang_type c) as [[]|]; try discriminate. destruct (lang_type a) as [ta|]; [|discriminate]. destruct (lang_type b) as [tb|]; [|discriminate].
    destruct C as (Cc & Ca & Cb). rewrite (IHc _ eq_refl Cc), (IHa _ eq_refl Ca), (IHb _ eq_refl Cb). cbn.
    destruct ta, tb; cbn in L; inversion L; reflexivity.
  - destruct (lang_type a) as [ta|]; [|discriminate]. rewrite (IHa _ eq_refl C). cbn.
    destruct ta, u; cbn in L; inversion L; reflexivity.
Qed.

(** What folding returns is a well formed constant of the type asked for. *)
Definition good_const (t : lty) (c : attr) : Prop := lang_const c = Some t /\ well_valued env (Cst c).
Lemma good_int : forall t z c, in_range z -> attr_of_int (ity t) z = Ok c -> good_const t c.
Proof. intros [] z c R [= <-]; split; cbn; auto. apply nearest_double. Qed.
Lemma good_int64 : forall t z c, (x <- int64 z ;; attr_of_int (ity t) x) = Ok c -> good_const t c.
Proof.
  intros t z c. unfold int64. destruct ((- 2 ^ 63 <=? z) && (z <? 2 ^ 63)) eqn:E; cbn [bind]; [|discriminate].
  apply good_int. unfold in_range. lia.
Qed.
Lemma good_real : forall t f c, is_double f -> attr_of_real (ity t) f = Ok c -> good_const t c.
Proof.
  intros [] f c D H; cbn in H.
  - injection H as <-. split; cbn; auto.
  - unfold to_int64 in H. destruct (int_part f); [|discriminate]. cbn [bind] in H. unfold int64 in H.
    destruct ((- 2 ^ 63 <=? z) && (z <? 2 ^ 63)) eqn:E; [|discriminate]. injection H as <-. split; [reflexivity|]. cbn. unfold in_range. lia.
  - injection H as <-. split; cbn; auto.
Qed.
Lemma good_bool : forall t b c, attr_of_int (ity t) (bool_int b) = Ok c -> good_const t c.
Proof. intros t b c. apply good_int. unfold in_range. destruct b; cbn; lia. Qed.
Lemma some_attr_inv : forall r c, some_attr r = Ok (Some c) -> r = Ok c.
Proof. intros [a| |] c H; cbn in H; congruence. Qed.
Lemma some_attr_None : forall r, some_attr r = Ok None -> False.
Proof. intros [a| |] H; cbn in H; congruence. Qed.

Lemma fold2_good : forall t fi ff l r c,
  (forall x y d, fi x y = Ok d -> good_const t d) ->
  (forall x y d, is_double x -> is_double y -> ff x y = Ok d -> good_const t d) ->
  (forall a, l = Some a -> well_valued env (Cst a)) -> (forall a, r = Some a -> well_valued env (Cst a)) ->
  fold2 fi ff l r = Ok (Some c) -> good_const t c.
Proof.
  intros t fi ff l r c Hi Hf Wl Wr H. unfold fold2 in H. destruct l as [a|]; [|discriminate]. destruct r as [b|]; [|discriminate].
  specialize (Wl _ eq_refl). specialize (Wr _ eq_refl).
  destruct a, b; cbn in Wl, Wr; try contradiction; cbn in H; apply some_attr_inv in H;
    (eapply Hi; exact H) || (eapply Hf; [| |exact H]; assumption || apply nearest_double).
Qed.
Lemma fold1_good : forall t fi ff l c,
  (forall x d, in_range x -> fi x = Ok d -> good_const t d) ->
  (forall x d, is_double x -> ff x = Ok d -> good_const t d) ->
  (forall a, l = Some a -> well_valued env (Cst a)) ->
  fold1 fi ff l = Ok (Some c) -> good_const t c.
Proof.
  intros t fi ff l c Hi Hf Wl H. unfold fold1 in H. destruct l as [a|]; [|discriminate]. specialize (Wl _ eq_refl).
  destruct a as [b|z|f| |]; cbn in Wl; try contradiction; cbn in H; apply some_attr_inv in H.
  - eapply Hi; [|exact H]. destruct b; unfold in_range; lia.
  - now eapply Hi; [|exact H].
  - now eapply Hf; [|exact H].
Qed.
Lemma known_valued : forall e, well_valued env e -> forall a, known e = Some a -> well_valued env (Cst a).
Proof. intros [] W a' E; cbn in E; try discriminate. now injection E as <-. Qed.
Lemma known_lang : forall e a, known e = Some a -> e = Cst a.
Proof. intros [] a' E; cbn in E; try discriminate. now injection E as <-. Qed.

Lemma on_ints_good : forall t f x y c, on_ints (ity t) f x y = Ok c -> good_const t c.
Proof. intros t f x y c. apply good_int64. Qed.
Lemma on_reals_good : forall t f, (forall x y, is_double x -> is_double y -> is_double (f x y)) ->
  forall x y c, is_double x -> is_double y -> on_reals (ity t) f x y = Ok c -> good_const t c.
Proof. intros t f Hf x y c Dx Dy. apply good_real. now apply Hf. Qed.

Lemma fold_pow_ew_good : forall t l r c,
  (forall a, l = Some a -> well_valued env (Cst a)) -> (forall a, r = Some a -> well_valued env (Cst a)) ->
  fold_pow_ew lib (ity t) l r = Ok (Some c) -> good_const t c.
Proof.
  intros t l r c Wl Wr. apply fold2_good; auto.
  - intros x y d. apply good_real. apply pow_double; apply nearest_double.
  - intros x y d Dx Dy. apply good_real. now apply pow_double.
Qed.
Lemma fold_bin_good : forall o t l r c,
  (forall a, l = Some a -> well_valued env (Cst a)) -> (forall a, r = Some a -> well_valued env (Cst a)) ->
  fold_bin lib o (ity t) l r = Ok (Some c) -> good_const t c.
Proof.
  intros o t l r c Wl Wr H.
  assert (HC : forall ci cf, fold_cmp (ity t) ci cf l r = Ok (Some c) -> good_const t c).
  { intros ci cf. apply fold2_good; auto; intros; eapply good_bool; eassumption. }
  assert (HL : forall f, fold_logic f (ity t) l r = Ok (Some c) -> good_const t c).
  { intros f. unfold fold_logic. destruct l as [a|]; [|discriminate]. destruct r as [b|]; [|discriminate].
    destruct (_ && _); [|discriminate]. intros E. apply some_attr_inv in E. eapply good_bool; exact E. }
  assert (HM : fold_mul_ew (ity t) l r = Ok (Some c) -> good_const t c).
  { apply fold2_good; auto; [apply on_ints_good|apply on_reals_good; apply mul_valid]. }
  destruct o; cbn [fold_bin] in H; try (now apply HC in H); try (now apply HL in H).
  1,2: revert H; apply fold2_good; auto; [apply on_ints_good|apply on_reals_good; apply add_valid].
  1,2: revert H; apply fold2_good; auto; [apply on_ints_good|apply on_reals_good; apply sub_valid].
  - unfold fold_mul in H. destruct (_ && _); [apply some_attr_inv in H; eapply good_int; [|exact H]; unfold in_range; lia|].
    destruct (_ && _); [apply some_attr_inv in H; eapply good_int; [|exact H]; unfold in_range; lia|]. now apply HM.
  - now apply HM.
  - revert H. apply fold2_good; auto; [|apply on_reals_good; apply div_valid].
    intros x y d. apply good_real. apply div_valid; apply nearest_double.
  - revert H. apply fold2_good; auto; [|apply on_reals_good; apply div_valid].
    intros x y d. apply good_real. apply div_valid; apply nearest_double.
  - unfold fold_pow in H. destruct l as [a|]; [|discriminate]. destruct r as [b|]; [|discriminate].
    destruct (fold_pow_ew lib (ity t) (Some a) (Some b)) as [[d|]| |] eqn:E; cbn [bind] in H; try discriminate.
    + injection H as <-. now apply (fold_pow_ew_good t (Some a) (Some b)).
    + exfalso. specialize (Wl _ eq_refl). specialize (Wr _ eq_refl). unfold fold_pow_ew, fold2 in E.
      destruct a, b; cbn in Wl, Wr; try contradiction; cbn in E; now apply some_attr_None in E.
  - now apply (fold_pow_ew_good t l r).
Qed.
Lemma fold_exp_good : forall e e' t, fold_exp lib e = Ok (Some e') -> lang_type e = Some t -> same_types e -> well_valued env e ->
  exists c, e' = Cst c /\ good_const t c.
Proof.
  intros e e' t H L S0 W. unfold fold_exp in H. rewrite (same_types_type _ _ L S0) in H. cbn [bind] in H.
  destruct e as [a|n u|o a|o a b|c a b|u a]; try discriminate.
  - destruct (fold_un o (ity t) (known a)) as [[d|]| |] eqn:E; cbn in H; try discriminate. injection H as <-. exists d. split; [reflexivity|].
    destruct o; cbn [fold_un] in E; (eapply fold1_good; [| |apply (known_valued a W)|exact E]); intros x d' Dx Hd.
    + eapply good_int64; exact Hd.
    + eapply good_real; [|exact Hd]. apply mul_valid; [apply nearest_double|exact Dx].
    + eapply good_bool; exact Hd.
    + eapply good_bool; exact Hd.
  - destruct (fold_bin lib o (ity t) (known a) (known b)) as [[d|]| |] eqn:E; cbn in H; try discriminate. injection H as <-. exists d. split; [reflexivity|].
    apply (fold_bin_good o t (known a) (known b)); [apply known_valued; apply W|apply known_valued; apply W|exact E].
  - destruct (fold_cast (ity t) (known a)) as [[d|]| |] eqn:E; cbn in H; try discriminate. injection H as <-. exists d. split; [reflexivity|].
    eapply fold1_good; [| |apply (known_valued a W)|exact E]; intros x d' Dx Hd; [eapply good_int|eapply good_real]; eassumption.
Qed.

(** A fold on an operand that is not known: a product by a constant zero. *)
Lemma fold_known : forall o a b t c, fold_bin lib o t (known a) (known b) = Ok (Some c) -> o <> Mul ->
  exists x y, a = Cst x /\ b = Cst y.
Proof.
  intros o a b t c H N.
  destruct (known a) as [x|] eqn:Ka; [|exfalso; destruct o; cbn in H; discriminate || congruence].
  destruct (known b) as [y|] eqn:Kb; [|exfalso; destruct o; cbn in H; discriminate || congruence].
  apply known_lang in Ka, Kb. eauto.
Qed.
Lemma fold_exp_sound : forall e e' t v, fold_exp lib e = Ok (Some e') -> lang_type e = Some t -> same_types e -> well_valued env e ->
  exact_step pow env e -> meaning pow env e = Some v -> meaning pow env e' = Some v.
Proof.
  intros e e' t v H L S0 W X M.
  destruct e as [a|n u|o a|o a b|c a b|u a].
  - unfold fold_exp in H. cbn in H. discriminate.
  - unfold fold_exp in H. cbn in H. discriminate.
  - assert (exists x, a = Cst x) as [x ->].
    { unfold fold_exp in H. destruct (type_of (Un o a)); cbn [bind] in H; try discriminate.
      destruct (known a) eqn:K; [apply known_lang in K; eauto|]. destruct o; discriminate. }
    destruct (fold_un_ok o x t v L W M) as (c & E & Mc). rewrite E in H. injection H as <-. exact Mc.
  - destruct (match o with Mul => true | _ => false end) eqn:Om.
    + destruct o; try discriminate.
      destruct W as (Wa & Wb). cbn in L. destruct (lang_type a) as [ta|] eqn:La; [|discriminate]. destruct (lang_type b) as [tb|] eqn:Lb; [|discriminate].
      pose proof (same_types_type (Bin Mul a b) t) as T. cbn [lang_type] in T. rewrite La, Lb in T. specialize (T L S0).
      assert (Hz : forall e0 te, lang_type e0 = Some te -> te = LI \/ te = LR -> well_valued env e0 -> is_zero_attr (known e0) = true -> zero_const e0).
      { intros e0 te Le HT We Z. destruct (known e0) as [x|] eqn:K; [|discriminate]. apply known_lang in K. subst e0.
        apply fold_mul_zero; auto. cbn in Le. destruct HT as [-> | ->]; auto. }
      assert (HT : (ta = LI \/ ta = LR) /\ (tb = LI \/ tb = LR)) by (destruct ta, tb; cbn in L; try discriminate; auto).
      unfold fold_exp in H. rewrite T in H. cbn [bind fold_bin] in H. unfold fold_mul in H.
      replace (ty_eqb (ity t) TArr) with false in H by (now destruct t). cbn [negb] in H. rewrite !andb_true_r in H.
      destruct (is_zero_attr (known a)) eqn:Za; [|destruct (is_zero_attr (known b)) eqn:Zb].
      * apply (Hz a ta) in Za; [|exact La|apply HT|exact Wa].
        destruct X as [X|[X _]]; [|contradiction]. cbn in X. rewrite La, Lb in X. rewrite X in L. injection L as <-.
        cbn in H. injection H as <-. cbn [meaning] in M.
        destruct a as [[b0|z|f| |]| | | | |]; cbn in Za; try contradiction.
        -- destruct z; try contradiction. cbn [meaning mean_const] in M. destruct (meaning pow env b) as [w|] eqn:Mb; [|discriminate].
           pose proof (meaning_type b tb w Lb Wb Mb) as Tw. 
           cbn in La. injection La as <-. destruct tb; cbn in X; try discriminate. destruct w; cbn in Tw; try contradiction. cbn [mean_bin numbers Z.mul] in M. apply an_integer_Some in M. destruct M as [_ ->]. reflexivity.
        -- cbn in La. injection La as <-. destruct tb; discriminate X.
      * apply (Hz b tb) in Zb; [|exact Lb|apply HT|exact Wb].
        destruct X as [X|[_ X]]; [|contradiction]. cbn in X. rewrite La, Lb in X. rewrite X in L. injection L as <-.
        cbn in H. injection H as <-. cbn [meaning] in M.
        destruct b as [[b0|z|f| |]| | | | |]; cbn in Zb; try contradiction.
        -- destruct z; try contradiction. cbn [meaning mean_const] in M. destruct (meaning pow env a) as [w|] eqn:Ma; [|discriminate].
           pose proof (meaning_type a ta w La Wa Ma) as Tw.
           cbn in Lb. injection Lb as <-. destruct ta; cbn in X; try discriminate. destruct w as [|w|]; cbn in Tw; try contradiction.
           cbn [mean_bin numbers] in M. rewrite Z.mul_0_r in M. apply an_integer_Some in M. destruct M as [_ ->]. reflexivity.
        -- cbn in Lb. injection Lb as <-. destruct ta; discriminate X.
      * cbn [andb] in H. change (fold_mul_ew (ity t) (known a) (known b)) with (fold_bin lib MulEW (ity t) (known a) (known b)) in H.
        assert (exists x y, a = Cst x /\ b = Cst y) as (x & y & -> & ->).
        { destruct (fold_bin lib MulEW (ity t) (known a) (known b)) as [[d|]| |] eqn:E; cbn in H; try discriminate.
          apply (fold_known MulEW a b (ity t) d E). discriminate. }
        assert (L' : lang_type (Bin MulEW (Cst x) (Cst y)) = Some t) by (cbn in *; rewrite La, Lb; exact L).
        destruct (fold_bin_ok MulEW x y t v L' Wa Wb I M) as (c & E & Mc).
        unfold fold_exp in E. rewrite (same_types_type _ _ L') in E by (cbn; auto). cbn [bind known] in E, H. rewrite E in H. injection H as <-. exact Mc.
    + assert (exists x y, a = Cst x /\ b = Cst y) as (x & y & -> & ->).
      { unfold fold_exp in H. destruct (type_of (Bin o a b)) as [tt| |]; cbn [bind] in H; try discriminate.
        destruct (fold_bin lib o tt (known a) (known b)) as [[d|]| |] eqn:E; cbn in H; try discriminate.
        apply (fold_known o a b tt d E). intros ->. discriminate. }
      destruct W as (Wa & Wb).
      assert (X' : exact_fold (Bin o (Cst x) (Cst y))).
      { destruct o; cbn in X |- *; try exact I; try contradiction; try discriminate Om. apply S0. }
      destruct (fold_bin_ok o x y t v L Wa Wb X' M) as (c & E & Mc). rewrite E in H. injection H as <-. exact Mc.
  - unfold fold_exp in H. destruct (type_of (Ite c a b)); cbn in H; discriminate.
  - assert (exists x, a = Cst x) as [x ->].
    { unfold fold_exp in H. destruct (type_of (CastE u a)); cbn [bind] in H; try discriminate.
      destruct (known a) eqn:K; [apply known_lang in K; eauto|]. discriminate. }
    destruct (fold_cast_ok u x t v L M) as (c & E & Mc). rewrite E in H. injection H as <-. exact Mc.
Qed.

(** ** Simplifications *)

Definition fine (e : exp) (t : lty) : Prop := lang_type e = Some t /\ same_types e /\ well_valued env e.
Lemma at_type_same : forall t v, has_type t v -> at_type t v = Some v.
Proof. intros [] []; cbn; try contradiction; auto. Qed.
Lemma cast_exp_ok : forall e s t r, fine e s -> (t = s \/ (s = LI /\ t = LR)) -> cast_exp (ity t) e = Ok r ->
  fine r t /\ (forall v, meaning pow env e = Some v -> meaning pow env r = at_type t v).
Proof.
  intros e s t r (L & S0 & W) H E. unfold cast_exp in E. rewrite (same_types_type _ _ L S0) in E. cbn [bind] in E.
  destruct H as [->|[-> ->]].
  - replace (ty_eqb (ity s) (ity s)) with true in E by (now destruct s). injection E as <-.
    split; [now repeat split|]. intros v M. rewrite M. symmetry. apply at_type_same. now apply (meaning_type e).
  - cbn in E. injection E as <-. split; [split; [cbn; rewrite L; reflexivity|split; [exact S0|exact W]]|].
    intros v M. cbn. now rewrite M.
Qed.
Lemma const_is_zero : forall e t, const_is 0 e = true -> fine e t -> t = LI \/ t = LR -> zero_const e.
Proof.
  intros e t H (L & _ & W) T. destruct e as [a| | | | |]; cbn in H; try discriminate.
  destruct a as [b|z|f| |]; cbn in *; try discriminate; [injection L as <-; destruct T; discriminate| |].
  - apply Z.eqb_eq in H. now subst.
  - destruct f as [s|[]| |[] m e]; cbn in H; try discriminate; exact I.
Qed.
Lemma SFeqb_finite : forall f m e, SFeqb f (S754_finite false m e) = true -> f = S754_finite false m e.
Proof.
  intros f m e H. unfold SFeqb in H. destruct f as [s|[]| |[] n d]; cbn in H; try discriminate.
  destruct (d ?= e) eqn:Ee; try discriminate. destruct (Pos.compare_cont Datatypes.Eq n m) eqn:Em; try discriminate.
  apply Z.compare_eq in Ee. apply Pos.compare_eq in Em. now subst.
Qed.
Lemma nearest_one : nearest 1 = S754_finite false 4503599627370496 (-52).
Proof. vm_compute. reflexivity. Qed.
Lemma const_is_one : forall e t, const_is 1 e = true -> fine e t -> t = LI \/ t = LR ->
  e = Cst (AI 1) \/ e = Cst (AR (nearest 1)).
Proof.
  intros e t H (L & _ & W) T. destruct e as [a| | | | |]; try discriminate.
  unfold const_is in H. destruct a as [b|z|f| |]; try discriminate; cbn [attr_ty is_scalar negb int_like float_like int_value float_value] in H;
    [cbn in L; injection L as <-; destruct T; discriminate| |].
  - apply Z.eqb_eq in H. subst. auto.
  - right. change (of_Z 1) with (nearest 1) in H. rewrite nearest_one in H |- *. apply SFeqb_finite in H. now subst.
Qed.
Lemma join_LILR : forall a b t, join a b = Some t -> (a = LI \/ a = LR) /\ (b = LI \/ b = LR).
Proof. intros [] [] t H; cbn in H; try discriminate; auto. Qed.
Lemma fine_bin : forall o a b t, fine (Bin o a b) t -> exists ta tb, fine a ta /\ fine b tb /\ lang_bin o ta tb = Some t.
Proof.
  intros o a b t (L & (Sa & Sb & _) & Wa & Wb). cbn in L. destruct (lang_type a) as [ta|] eqn:La; [|discriminate].
  destruct (lang_type b) as [tb|] eqn:Lb; [|discriminate]. exists ta, tb. now repeat split.
Qed.
Lemma join_comm : forall a b, join a b = join b a.
Proof. now intros [] []. Qed.

Definition real_zero (v : value) : Prop := exists s, v = VR (S754_zero s).
Lemma Some_inj : forall a b : value, Some a = Some b -> a = b.
Proof. congruence. Qed.
Lemma add_unit : forall c tc t v r j, zero_const (Cst c) -> lang_const c = Some tc -> has_type t v -> join tc t = Some j ->
  forall u, mean_const c = Some u ->
  (numbers Z.add (SFadd 53 1024) u v = Some r \/ numbers Z.add (SFadd 53 1024) v u = Some r) -> (j = LI \/ ~ real_zero r) ->
  at_type j v = Some r.
Proof.
  intros c tc t v r j Zc Lc Tv J u Mu E B.
  assert (Z0 : forall f s, ~ real_zero (VR (SFadd 53 1024 f (S754_zero s))) -> SFadd 53 1024 f (S754_zero s) = f).
  { intros f s N. apply add_zero_r. intros b ->. apply N. destruct b, s; cbn; eexists; reflexivity. }
  assert (Z1 : forall f s, ~ real_zero (VR (SFadd 53 1024 (S754_zero s) f)) -> SFadd 53 1024 (S754_zero s) f = f).
  { intros f s N. apply add_zero_l. intros b ->. apply N. destruct b, s; cbn; eexists; reflexivity. }
  assert (N0 : nearest 0 = S754_zero false) by reflexivity.
  destruct c as [b|z|f| |]; cbn in Zc; try contradiction; cbn in Lc, Mu; injection Lc as <-; injection Mu as <-.
  - destruct z; try contradiction. destruct t; cbn in J; try discriminate; injection J as <-; destruct v as [|z|g]; cbn in Tv; try contradiction.
    + cbn [at_type]. destruct E as [E|E]; cbn [numbers] in E; apply an_integer_Some in E; destruct E as [_ ->]; do 2 f_equal; lia.
    + destruct B as [B|B]; [discriminate|]. cbn [at_type].
      destruct E as [E|E]; cbn [numbers both_real as_real] in E; rewrite N0 in E; apply Some_inj in E; subst r; do 2 f_equal; symmetry; auto.
  - destruct f as [s| | |]; try contradiction. destruct t; cbn in J; try discriminate; injection J as <-; destruct v as [|z|g]; cbn in Tv; try contradiction;
      (destruct B as [B|B]; [discriminate|]); cbn [at_type];
      destruct E as [E|E]; cbn [numbers both_real as_real] in E; apply Some_inj in E; subst r; do 2 f_equal; symmetry; auto.
Qed.
Lemma mul_unit_ok : forall c tc t v r j, Cst c = Cst (AI 1) \/ Cst c = Cst (AR (nearest 1)) -> lang_const c = Some tc -> has_type t v -> join tc t = Some j ->
  forall u, mean_const c = Some u ->
  (numbers Z.mul (SFmul 53 1024) u v = Some r \/ numbers Z.mul (SFmul 53 1024) v u = Some r) ->
  at_type j v = Some r.
Proof.
  intros c tc t v r j Zc Lc Tv J u Mu E.
  assert (Z0 : forall f, is_double f -> SFmul 53 1024 f (nearest 1) = f) by (intros f D; now apply mul_unit_r).
  assert (Z1 : forall f, is_double f -> SFmul 53 1024 (nearest 1) f = f) by (intros f D; now apply (mul_unit 1)).
  destruct Zc as [Zc|Zc]; injection Zc as ->; cbn in Lc, Mu; injection Lc as <-; injection Mu as <-.
  - destruct t; cbn in J; try discriminate; injection J as <-; destruct v as [|z|g]; cbn in Tv; try contradiction; cbn [at_type].
    + destruct E as [E|E]; cbn [numbers] in E; apply an_integer_Some in E; destruct E as [_ ->]; do 2 f_equal; lia.
    + destruct E as [E|E]; cbn [numbers both_real as_real] in E; apply Some_inj in E; subst r; do 2 f_equal; symmetry; auto.
  - destruct t; cbn in J; try discriminate; injection J as <-; destruct v as [|z|g]; cbn in Tv; try contradiction; cbn [at_type];
      destruct E as [E|E]; cbn [numbers both_real as_real] in E; apply Some_inj in E; subst r; do 2 f_equal; symmetry; auto using nearest_double.
Qed.

Lemma simplify_sound : forall e e' t, simplify_exp e = Ok (Some e') -> fine e t -> exact_step pow env e ->
  fine e' t /\ (forall v, meaning pow env e = Some v -> meaning pow env e' = Some v).
Proof.
  intros e e' t H F X. destruct e as [a|n u|o a|o a b|c a b|u a]; try discriminate.
  pose proof F as (L & S0 & W). destruct (fine_bin _ _ _ _ F) as (ta & tb & Fa & Fb & J).
  pose proof (same_types_type _ _ L S0) as T.
  destruct o; try discriminate; try contradiction; cbn [simplify_exp] in H; rewrite T in H; cbn [bind] in H; cbn in J;
    destruct (join_cases _ _ _ J) as [Ja Jb]; destruct (join_LILR _ _ _ J) as [Ka Kb].
  - assert (B : forall v, meaning pow env (Bin Add a b) = Some v -> t = LI \/ ~ real_zero v).
    { intros v M. destruct X as [X|X]; [left; congruence|right]. intros [s ->]. now apply (X s). }
    destruct (const_is 0 a) eqn:Ca; [|destruct (const_is 0 b) eqn:Cb; [|discriminate]].
    + destruct (cast_exp (ity t) b) as [r| |] eqn:E; cbn in H; try discriminate. injection H as <-.
      destruct (cast_exp_ok _ _ _ _ Fb Jb E) as [Fr Mr]. split; [exact Fr|]. intros v M. specialize (B v M).
      pose proof (const_is_zero _ _ Ca Fa Ka) as Zc. destruct a as [c| | | | |]; try contradiction.
      cbn [meaning] in M. destruct (mean_const c) as [vc|] eqn:Mc; [|discriminate]. destruct (meaning pow env b) as [w|] eqn:Mb; [|discriminate].
      rewrite (Mr w eq_refl). eapply add_unit; [exact Zc|exact (proj1 Fa)|apply (meaning_type b tb); apply Fb || exact Mb|exact J|exact Mc|left; exact M|exact B].
    + destruct (cast_exp (ity t) a) as [r| |] eqn:E; cbn in H; try discriminate. injection H as <-.
      destruct (cast_exp_ok _ _ _ _ Fa Ja E) as [Fr Mr]. split; [exact Fr|]. intros v M. specialize (B v M).
      pose proof (const_is_zero _ _ Cb Fb Kb) as Zc. destruct b as [c| | | | |]; try contradiction.
      cbn [meaning] in M. destruct (meaning pow env a) as [w|] eqn:Ma; [|discriminate]. destruct (mean_const c) as [vc|] eqn:Mc; [|discriminate].
      rewrite (Mr w eq_refl). rewrite join_comm in J.
      eapply add_unit; [exact Zc|exact (proj1 Fb)|apply (meaning_type a ta); apply Fa || exact Ma|exact J|exact Mc|right; exact M|exact B].
  - destruct (const_is 1 a) eqn:Ca; [|destruct (const_is 1 b) eqn:Cb; [|discriminate]].
    + destruct (cast_exp (ity t) b) as [r| |] eqn:E; cbn in H; try discriminate. injection H as <-.
      destruct (cast_exp_ok _ _ _ _ Fb Jb E) as [Fr Mr]. split; [exact Fr|]. intros v M.
      pose proof (const_is_one _ _ Ca Fa Ka) as Zc. destruct a as [c| | | | |]; try (destruct Zc; discriminate).
      cbn [meaning] in M. destruct (mean_const c) as [vc|] eqn:Mc; [|discriminate]. destruct (meaning pow env b) as [w|] eqn:Mb; [|discriminate].
      rewrite (Mr w eq_refl). eapply mul_unit_ok; [exact Zc|exact (proj1 Fa)|apply (meaning_type b tb); apply Fb || exact Mb|exact J|exact Mc|left; exact M].
    + destruct (cast_exp (ity t) a) as [r| |] eqn:E; cbn in H; try discriminate. injection H as <-.
      destruct (cast_exp_ok _ _ _ _ Fa Ja E) as [Fr Mr]. split; [exact Fr|]. intros v M.
      pose proof (const_is_one _ _ Cb Fb Kb) as Zc. destruct b as [c| | | | |]; try (destruct Zc; discriminate).
      cbn [meaning] in M. destruct (meaning pow env a) as [w|] eqn:Ma; [|discriminate]. destruct (mean_const c) as [vc|] eqn:Mc; [|discriminate].
      rewrite (Mr w eq_refl). rewrite join_comm in J.
      eapply mul_unit_ok; [exact Zc|exact (proj1 Fb)|apply (meaning_type a ta); apply Fa || exact Ma|exact J|exact Mc|right; exact M].
Qed.

Theorem step_sound : forall e e' (Q : exp -> Prop), (forall r, Q r -> exact_step pow env r) -> step lib Q e e' ->
  forall t, fine e t -> fine e' t /\ (forall v, meaning pow env e = Some v -> meaning pow env e' = Some v).
Proof.
  intros e e' Q HQ H. induction H as [e e' q H|e e' q H|o a a' H IH|o a a' b H IH|o a b b' H IH|c c' a b H IH|c a a' b H IH|c a b b' H IH|u a a' H IH]; intros t F.
  - pose proof F as (L & S0 & W). destruct (fold_exp_good _ _ _ H L S0 W) as (c & -> & G1 & G2).
    split; [now repeat split|]. intros v M. now apply (fold_exp_sound e (Cst c) t v H L S0 W (HQ _ q)).
  - apply simplify_sound; auto.
  - destruct F as (L & S0 & W). cbn in L, S0, W. destruct (lang_type a) as [ta|] eqn:La; [|discriminate].
    destruct (IH ta (conj La (conj S0 W))) as ((La' & Sa' & Wa') & M). split; [split; [cbn; now rewrite La'|split; assumption]|].
    intros v Hv. cbn in Hv |- *. destruct (meaning pow env a) as [w|]; [|discriminate]. now rewrite (M w eq_refl).
  - destruct F as (L & S0 & W). cbn in L, S0, W. destruct (lang_type a) as [ta|] eqn:La; [|discriminate]. destruct W as (Wa & Wb). destruct S0 as (Sa & Sb & So).
    destruct (IH ta (conj La (conj Sa Wa))) as ((La' & Sa' & Wa') & M). split.
    + split; [cbn; now rewrite La'|split; cbn; [rewrite La'; auto|auto]].
    + intros v Hv. cbn in Hv |- *. destruct (meaning pow env a) as [w|]; [|discriminate]. now rewrite (M w eq_refl).
  - destruct F as (L & S0 & W). cbn in L, S0, W. destruct (lang_type a) as [ta|] eqn:La; [|discriminate]. destruct (lang_type b) as [tb|] eqn:Lb; [|discriminate].
    destruct W as (Wa & Wb). destruct S0 as (Sa & Sb & So).
    destruct (IH tb (conj Lb (conj Sb Wb))) as ((La' & Sa' & Wa') & M). split.
    + split; [cbn; now rewrite La, La'|split; cbn; [rewrite La, La'; auto|auto]].
    + intros v Hv. cbn in Hv |- *. destruct (meaning pow env a) as [w|]; [|discriminate]. destruct (meaning pow env b) as [w'|]; [|discriminate]. now rewrite (M w' eq_refl).
  - destruct F as (L & S0 & W). pose proof L as L0. cbn in L, S0, W. destruct (lang_type c) as [tc|] eqn:Lc; [|discriminate]. destruct W as (Wc & Wa & Wb). destruct S0 as (Sc & Sa & Sb).
    destruct (IH tc (conj Lc (conj Sc Wc))) as ((La' & Sa' & Wa') & M).
    assert (L1 : lang_type (Ite c' a b) = Some t) by (cbn; now rewrite La').
    split; [split; [exact L1|split; cbn; auto]|].
    intros v Hv. cbn [meaning] in Hv |- *. rewrite L0 in Hv. rewrite L1. destruct (meaning pow env c) as [w|]; [|discriminate]. now rewrite (M w eq_refl).
  - destruct F as (L & S0 & W). pose proof L as L0. cbn in L, S0, W. destruct (lang_type c) as [tc|] eqn:Lc; [|discriminate]. destruct (lang_type a) as [ta|] eqn:La; [|destruct tc; discriminate].
    destruct W as (Wc & Wa & Wb). destruct S0 as (Sc & Sa & Sb).
    destruct (IH ta (conj La (conj Sa Wa))) as ((La' & Sa' & Wa') & M).
    assert (L1 : lang_type (Ite c a' b) = Some t) by (cbn; now rewrite Lc, La').
    split; [split; [exact L1|split; cbn; auto]|].
    intros v Hv. cbn [meaning] in Hv |- *. rewrite L0 in Hv. rewrite L1. destruct (meaning pow env c) as [[[]| |]|]; try discriminate; auto.
    destruct (meaning pow env a) as [w|]; [|discriminate]. now rewrite (M w eq_refl).
  - destruct F as (L & S0 & W). pose proof L as L0. cbn in L, S0, W. destruct (lang_type c) as [tc|] eqn:Lc; [|discriminate]. destruct (lang_type a) as [ta|] eqn:La; [|destruct tc; discriminate].
    destruct (lang_type b) as [tb|] eqn:Lb; [|destruct tc; discriminate].
    destruct W as (Wc & Wa & Wb). destruct S0 as (Sc & Sa & Sb).
    destruct (IH tb (conj Lb (conj Sb Wb))) as ((La' & Sa' & Wa') & M).
    assert (L1 : lang_type (Ite c a b') = Some t) by (cbn; now rewrite Lc, La, La').
    split; [split; [exact L1|split; cbn; auto]|].
    intros v Hv. cbn [meaning] in Hv |- *. rewrite L0 in Hv. rewrite L1. destruct (meaning pow env c) as [[[]| |]|]; try discriminate; auto.
    destruct (meaning pow env b) as [w|]; [|discriminate]. now rewrite (M w eq_refl).
  - destruct F as (L & S0 & W). cbn in L, S0, W. destruct (lang_type a) as [ta|] eqn:La; [|discriminate].
    destruct (IH ta (conj La (conj S0 W))) as ((La' & Sa' & Wa') & M). split; [split; [cbn; now rewrite La'|split; assumption]|].
    intros v Hv. cbn in Hv |- *. destruct (meaning pow env a) as [w|]; [|discriminate]. now rewrite (M w eq_refl).
Qed.
Theorem steps_sound : forall (Q : exp -> Prop) e e', (forall r, Q r -> exact_step pow env r) -> steps lib Q e e' ->
  forall t, fine e t -> fine e' t /\ (forall v, meaning pow env e = Some v -> meaning pow env e' = Some v).
Proof.
  intros Q e e' HQ H. induction H as [e|e e1 e2 H1 H2 IH]; intros t F; [auto|].
  destruct (step_sound _ _ Q HQ H1 t F) as [F1 M1]. destruct (IH t F1) as [F2 M2]. auto.
Qed.
End Fold.
