(** Proofs about the code generated for arithmetic on scalars. *)
From Coq Require Import ZArith List Bool SpecFloat Lia ZifyBool.
From Verif Require Import Result ArithModel ArithSpec FloatFacts.
Import ListNotations.
Local Open Scope Z_scope.

Definition cty (t : lty) : ty := match t with LB => TI 1 | LI => TI 64 | LR => TF 64 end.
Definition ity (t : lty) : ty := match t with LB => TBool | LI => TInt | LR => TReal end.
(** A value of a type, without the condition on the format of a Real. *)
Definition of_kind (t : lty) (v : value) : Prop :=
  match t, v with LB, VB _ => True | LI, VI z => in_range z | LR, VR _ => True | _, _ => False end.
Lemma has_type_kind : forall t v, has_type t v -> of_kind t v.
Proof. intros [] []; cbn; auto. Qed.
Lemma conv_ity : forall t, conv (ity t) = cty t.
Proof. now intros []. Qed.
Lemma lang_ty_ity : forall t l, lang_ty t = Some l -> t = ity l.
Proof. intros [] l H; cbn in H; inversion H; reflexivity. Qed.

Section Run.
Variable env : nat -> value.
Let henv (n : nat) : aval := held (env n).

(** Code of a type that computes a value. *)
Definition code (e : aexp) (t : lty) (v : value) : Prop :=
  arith_type e = Ok (cty t) /\ run henv e = Ok (held v) /\ of_kind t v.

Lemma wrap64 : forall z, in_range z -> wrap (TI 64) z = z.
Proof.
  intros z H. unfold in_range in H. unfold wrap, bits. change (64 - 1) with 63.
  rewrite Z.mod_small; lia.
Qed.
Lemma wrap64_range : forall z, in_range (wrap (TI 64) z).
Proof.
  intros z. unfold in_range, wrap, bits. change (64 - 1) with 63.
  pose proof (Z.mod_pos_bound (z + 2 ^ 63) (2 ^ 64) eq_refl). lia.
Qed.
Lemma an_integer_Some : forall z v, an_integer z = Some v -> in_range z /\ v = VI z.
Proof.
  intros z v. unfold an_integer, in_rangeb, in_range. destruct ((- 2 ^ 63 <=? z) && (z <? 2 ^ 63)) eqn:E; [|discriminate].
  intros [= <-]. split; [lia|reflexivity].
Qed.

(** The type two numbers are promoted to. *)
Lemma generic_cty : forall a b t, join a b = Some t -> generic (cty a) (cty b) = Ok (cty t).
Proof. intros [] [] t [= <-]; reflexivity. Qed.
Lemma generic_ity : forall a b t, join a b = Some t -> generic (ity a) (ity b) = Ok (ity t).
Proof. intros [] [] t [= <-]; reflexivity. Qed.

Lemma cast_if_ok : forall e s t v w, code e s v -> at_type t v = Some w -> (t = s \/ (s = LI /\ t = LR)) ->
  exists e', cast_if (cty t) e = Ok e' /\ code e' t w.
Proof.
  intros e s t v w (T & R & K) A [->|[-> ->]]; unfold cast_if; rewrite T; cbn [bind].
  - exists e. replace (ty_eqb (cty s) (cty s)) with true by (destruct s; reflexivity).
    split; [reflexivity|]. replace w with v; [now repeat split|]. destruct s, v; cbn in *; congruence || contradiction.
  - destruct v; cbn in K; try contradiction. cbn in A. injection A as <-.
    exists (SIToFP (TF 64) e). unfold cast_arith. rewrite T.
    split; [reflexivity|]. unfold code. cbn. rewrite T, R. cbn. now repeat split.
Qed.
Lemma cast_if_same : forall e t v, code e t v -> cast_if (cty t) e = Ok e.
Proof.
  intros e t v (T & _). unfold cast_if. rewrite T. cbn [bind]. now destruct t.
Qed.
Ltac same C := let E := fresh in pose proof (cast_if_same _ _ _ C) as E; cbn [cty] in E |- *; rewrite E; clear E.
Lemma cast_arith_ok : forall e s t v w, code e s v -> at_type t v = Some w -> (t = s \/ (s = LI /\ t = LR)) ->
  exists e', cast_arith (cty t) e = Ok e' /\ code e' t w.
Proof.
  intros e s t v w C A H. destruct H as [->|H'].
  - exists e. destruct C as (T & R & K). split.
    + unfold cast_arith. rewrite T. now destruct s.
    + replace w with v; [now repeat split|]. destruct s, v; cbn in *; congruence || contradiction.
  - destruct (cast_if_ok e s t v w C A (or_intror H')) as (e' & E & C'). destruct H' as [-> ->].
    exists e'. split; [|exact C']. unfold cast_if in E. destruct C as (T & _). rewrite T in E. exact E.
Qed.
Lemma cast_arith_conv : forall t e, cast_arith t e = cast_arith (conv t) e.
Proof. intros t e. unfold cast_arith. now replace (conv (conv t)) with (conv t) by (now destruct t). Qed.

Lemma join_cases : forall a b t, join a b = Some t -> (t = a \/ (a = LI /\ t = LR)) /\ (t = b \/ (b = LI /\ t = LR)).
Proof. intros [] [] t [= <-]; auto. Qed.
Lemma join_at : forall a b t v w, join a b = Some t -> of_kind a v -> of_kind b w ->
  exists v' w', at_type t v = Some v' /\ at_type t w = Some w' /\ of_kind t v' /\ of_kind t w'.
Proof. intros [] [] t v w [= <-]; destruct v, w; cbn; try easy; intros; eexists; eexists; (split; [reflexivity|]); (split; [reflexivity|]); auto. Qed.

Lemma promoted_ok : forall a b sa sb t va vb, code a sa va -> code b sb vb -> join sa sb = Some t ->
  exists a' b' va' vb', promoted a b = Ok (cty t, a', b') /\ code a' t va' /\ code b' t vb' /\
    at_type t va = Some va' /\ at_type t vb = Some vb'.
Proof.
  intros a b sa sb t va vb Ca Cb J. destruct (join_cases _ _ _ J) as [Ja Jb].
  destruct (join_at _ _ _ va vb J (proj2 (proj2 Ca)) (proj2 (proj2 Cb))) as (va' & vb' & Aa & Ab & _).
  destruct (cast_if_ok _ _ _ _ _ Ca Aa Ja) as (a' & Ea & Ca'). destruct (cast_if_ok _ _ _ _ _ Cb Ab Jb) as (b' & Eb & Cb').
  exists a', b', va', vb'. split; [|auto].
  unfold promoted. rewrite (proj1 Ca), (proj1 Cb). cbn [bind]. rewrite (generic_cty _ _ _ J). cbn [bind]. rewrite Ea, Eb. reflexivity.
Qed.

(** Two numbers at the type they are promoted to. *)
Definition num_result (fi : Z -> Z -> Z) (ff : real -> real -> real) (v w : value) : value :=
  match v, w with VI x, VI y => VI (wrap (TI 64) (fi x y)) | VR x, VR y => VR (ff x y) | _, _ => v end.

Lemma lower_arith_ok : forall (mi mf : aexp -> aexp -> aexp) fi ff,
  (forall a b x y, code a LI (VI x) -> code b LI (VI y) -> code (mi a b) LI (VI (wrap (TI 64) (fi x y)))) ->
  (forall a b x y, code a LR (VR x) -> code b LR (VR y) -> code (mf a b) LR (VR (ff x y))) ->
  forall a b sa sb t va vb, code a sa va -> code b sb vb -> join sa sb = Some t ->
  exists e v, lower_arith mi mf (ity t) a b = Ok e /\ code e t v /\
    (forall u, numbers fi ff va vb = Some u -> v = u).
Proof.
  intros mi mf fi ff Hi Hf a b sa sb t va vb Ca Cb J.
  destruct (promoted_ok _ _ _ _ _ _ _ Ca Cb J) as (a' & b' & va' & vb' & P & Ca' & Cb' & Aa & Ab).
  unfold lower_arith. rewrite P. cbn [bind]. rewrite conv_ity.
  destruct Ca as (_ & _ & Ka), Cb as (_ & _ & Kb).
  destruct t.
  - destruct sa, sb; discriminate J.
  - destruct sa, sb; try discriminate J. destruct va, vb; cbn in Ka, Kb; try contradiction.
    cbn in Aa, Ab. injection Aa as <-. injection Ab as <-.
    pose proof (Hi _ _ _ _ Ca' Cb') as C. exists (mi a' b'), (VI (wrap (TI 64) (fi z z0))).
    change (arith_int (cty LI)) with true. cbn iota. rewrite (cast_if_same _ _ _ C).
    split; [reflexivity|]. split; [exact C|]. cbn [numbers]. intros u Hu. apply an_integer_Some in Hu. destruct Hu as [Hr ->].
    now rewrite wrap64.
  - assert (exists x, va' = VR x) as [x ->] by (destruct va; cbn in Aa; inversion Aa; eauto).
    assert (exists y, vb' = VR y) as [y ->] by (destruct vb; cbn in Ab; inversion Ab; eauto).
    pose proof (Hf _ _ _ _ Ca' Cb') as C. exists (mf a' b'), (VR (ff x y)).
    change (arith_int (cty LR)) with false. change (arith_float (cty LR)) with true. cbn iota. rewrite (cast_if_same _ _ _ C).
    split; [reflexivity|]. split; [exact C|]. intros u Hu.
    destruct va, vb; cbn in Aa, Ab; try discriminate; injection Aa as <-; injection Ab as <-; cbn in Hu; try (injection Hu as <-; reflexivity).
    destruct sa, sb; cbn in Ka, Kb; contradiction || discriminate J.
Qed.

Ltac code_tac := unfold code; cbn [arith_type run]; repeat match goal with
  | H : code _ _ _ |- _ => destruct H as (? & ? & ?) end;
  repeat match goal with H : arith_type _ = _ |- _ => rewrite H end;
  repeat match goal with H : run _ _ = _ |- _ => rewrite H end; cbn.

Lemma code_int2 : forall mi f, 
  (forall a b, arith_type (mi a b) = arith_type (AddI a b)) ->
  (forall a b x y, run henv a = Ok (held (VI x)) -> run henv b = Ok (held (VI y)) -> run henv (mi a b) = Ok (IV (TI 64) (wrap (TI 64) (f x y)))) ->
  forall a b x y, code a LI (VI x) -> code b LI (VI y) -> code (mi a b) LI (VI (wrap (TI 64) (f x y))).
Proof.
  intros mi f T R a b x y (Ta & Ra & _) (Tb & Rb & _). unfold code. rewrite T, (R _ _ _ _ Ra Rb). cbn. rewrite Ta, Tb.
  split; [reflexivity|]. split; [reflexivity|]. apply wrap64_range.
Qed.
Lemma code_flt2 : forall mf (f : real -> real -> real),
  (forall a b, arith_type (mf a b) = arith_type (AddF a b)) ->
  (forall a b x y, run henv a = Ok (held (VR x)) -> run henv b = Ok (held (VR y)) -> run henv (mf a b) = Ok (FV (TF 64) (f x y))) ->
  forall a b x y, code a LR (VR x) -> code b LR (VR y) -> code (mf a b) LR (VR (f x y)).
Proof.
  intros mf f T R a b x y (Ta & Ra & _) (Tb & Rb & _). unfold code. rewrite T, (R _ _ _ _ Ra Rb). cbn. rewrite Ta, Tb.
  now repeat split.
Qed.
Ltac r2 := let Ha := fresh in let Hb := fresh in intros ? ? ? ? Ha Hb; cbn [run]; rewrite Ha, Hb; reflexivity.
Lemma lower_add_ok : forall a b sa sb t va vb, code a sa va -> code b sb vb -> join sa sb = Some t ->
  exists e v, lower_add (ity t) a b = Ok e /\ code e t v /\ (forall u, numbers Z.add (SFadd 53 1024) va vb = Some u -> v = u).
Proof. apply lower_arith_ok; [apply code_int2|apply (code_flt2 _ radd)]; try reflexivity; r2. Qed.
Lemma lower_sub_ok : forall a b sa sb t va vb, code a sa va -> code b sb vb -> join sa sb = Some t ->
  exists e v, lower_sub (ity t) a b = Ok e /\ code e t v /\ (forall u, numbers Z.sub (SFsub 53 1024) va vb = Some u -> v = u).
Proof. apply lower_arith_ok; [apply code_int2|apply (code_flt2 _ rsub)]; try reflexivity; r2. Qed.
Lemma lower_mul_ok : forall a b sa sb t va vb, code a sa va -> code b sb vb -> join sa sb = Some t ->
  exists e v, lower_mul (ity t) a b = Ok e /\ code e t v /\ (forall u, numbers Z.mul (SFmul 53 1024) va vb = Some u -> v = u).
Proof. apply lower_arith_ok; [apply code_int2|apply (code_flt2 _ rmul)]; try reflexivity; r2. Qed.

Lemma lower_div_ok : forall a b sa sb t va vb, code a sa va -> code b sb vb -> join sa sb = Some t ->
  exists e v, lower_div TReal a b = Ok e /\ code e LR v /\ (forall u, both_real (SFdiv 53 1024) va vb = Some u -> v = u).
Proof.
  intros a b sa sb t va vb Ca Cb J.
  assert (La : LR = sa \/ (sa = LI /\ LR = LR)) by (destruct sa, sb; cbn in J; try discriminate; auto).
  assert (Lb : LR = sb \/ (sb = LI /\ LR = LR)) by (destruct sa, sb; cbn in J; try discriminate; auto).
  pose proof (proj2 (proj2 Ca)) as Ka. pose proof (proj2 (proj2 Cb)) as Kb.
  assert (exists x, at_type LR va = Some (VR x) /\ as_real va = Some x) as (x & Ax & Rx)
    by (destruct La as [<-|[-> _]], va; cbn in Ka; try contradiction; cbn; eauto).
  assert (exists x, at_type LR vb = Some (VR x) /\ as_real vb = Some x) as (y & Ay & Ry)
    by (destruct Lb as [<-|[-> _]], vb; cbn in Kb; try contradiction; cbn; eauto).
  destruct (cast_if_ok _ _ _ _ _ Ca Ax La) as (a' & Ea & Ca'). destruct (cast_if_ok _ _ _ _ _ Cb Ay Lb) as (b' & Eb & Cb').
  unfold lower_div. rewrite (proj1 Ca), (proj1 Cb). change (conv TReal) with (cty LR). cbn [bind].
  change (arith_float (cty LR)) with true. cbn iota. cbn [bind]. rewrite Ea, Eb. cbn [bind].
  change (arith_int (cty LR)) with false. cbn iota.
  assert (C : code (DivF a' b') LR (VR (rdiv x y))).
  { refine (code_flt2 DivF rdiv _ _ a' b' x y Ca' Cb'); [reflexivity|]. r2. }
  rewrite (cast_if_same _ _ _ C). exists (DivF a' b'), (VR (rdiv x y)). split; [reflexivity|]. split; [exact C|].
  intros u. unfold both_real. rewrite Rx, Ry. now intros [= <-].
Qed.

(** Comparisons. *)
Definition i_holds (p : ipred) (c : comparison) : bool :=
  match p, c with
  | Ieq, Datatypes.Eq | Ine, Datatypes.Lt | Ine, Datatypes.Gt | Isgt, Datatypes.Gt
  | Isge, Datatypes.Gt | Isge, Datatypes.Eq | Islt, Datatypes.Lt | Isle, Datatypes.Lt | Isle, Datatypes.Eq => true
  | _, _ => false
  end.
Lemma ieval_holds : forall p x y, ieval p x y = i_holds p (x ?= y).
Proof.
  intros p x y. destruct p; cbn; destruct (x ?= y) eqn:E; try reflexivity;
    rewrite ?Z.compare_eq_iff, ?Z.compare_lt_iff, ?Z.compare_gt_iff in E; lia.
Qed.
Definition f_holds (p : fpred) (c : option comparison) : bool :=
  match p, c with
  | Foeq, Some Datatypes.Eq | Fone, Some Datatypes.Lt | Fone, Some Datatypes.Gt | Fogt, Some Datatypes.Gt
  | Foge, Some Datatypes.Gt | Foge, Some Datatypes.Eq | Folt, Some Datatypes.Lt
  | Fole, Some Datatypes.Lt | Fole, Some Datatypes.Eq => true
  | _, _ => false
  end.
Lemma Pcompare_antisym : forall p q, Pos.compare_cont Datatypes.Eq p q = CompOpp (Pos.compare_cont Datatypes.Eq q p).
Proof. intros. symmetry. apply (Pos.compare_cont_antisym q p Datatypes.Eq). Qed.
Lemma SFcompare_swap : forall x y, SFcompare y x = match SFcompare x y with Some c => Some (CompOpp c) | None => None end.
Proof.
  intros [[]|[]| |[] m e] [[]|[]| |[] n f]; try reflexivity; cbn; rewrite (Z.compare_antisym e f); destruct (e ?= f); cbn; try reflexivity;
  rewrite (Pcompare_antisym n m); try reflexivity; now rewrite ?CompOpp_involutive.
Qed.
Lemma feval_holds : forall p x y, feval p x y = f_holds p (SFcompare x y).
Proof.
  intros p x y. destruct p; cbn; unfold SFeqb, SFltb, SFleb, ordered; rewrite ?(SFcompare_swap x y); destruct (SFcompare x y) as [[]|]; reflexivity.
Qed.

Lemma lower_cmp_ok : forall pi pf (f : option comparison -> bool) a b sa sb va vb,
  (forall c, i_holds pi c = f (Some c)) ->
  (forall x y, as_real va = Some x -> as_real vb = Some y -> sa = LR \/ sb = LR -> f_holds pf (SFcompare x y) = f (SFcompare x y)) ->
  (sa = LB -> sb = LB -> pi = Ieq \/ pi = Ine) ->
  code a sa va -> code b sb vb ->
  (sa = LB /\ sb = LB) \/ (exists t, join sa sb = Some t) ->
  exists e v, lower_cmp pi pf TBool a b = Ok e /\ code e LB v /\ (forall u, compared f va vb = Some u -> v = u).
Proof.
  intros pi pf f a b sa sb va vb Hi Hf Hb Ca Cb [[-> ->]|[t J]].
  - pose proof (proj2 (proj2 Ca)) as Ka. pose proof (proj2 (proj2 Cb)) as Kb.
    destruct va as [x| |]; cbn in Ka; try contradiction. destruct vb as [y| |]; cbn in Kb; try contradiction.
    unfold lower_cmp, promoted. rewrite (proj1 Ca), (proj1 Cb). cbn [bind].
    change (generic (cty LB) (cty LB)) with (Ok (cty LB)). cbn [bind].
    same Ca. cbn [bind]. same Cb. cbn [bind arith_int].
    set (r := i_holds pi (if Bool.eqb x y then Datatypes.Eq else if x then Datatypes.Gt else Datatypes.Lt)).
    assert (C : code (CmpI pi a b) LB (VB r)).
    { unfold code. cbn [arith_type run]. rewrite (proj1 Ca), (proj1 Cb), (proj1 (proj2 Ca)), (proj1 (proj2 Cb)).
      split; [reflexivity|]. split; [|exact I]. cbn. unfold i1, r.
      destruct (Hb eq_refl eq_refl) as [-> | ->]; destruct x, y; reflexivity. }
    change (conv TBool) with (cty LB). rewrite (cast_if_same _ _ _ C). exists (CmpI pi a b), (VB r).
    split; [reflexivity|]. split; [exact C|]. cbn. intros u [= <-]. unfold r. now rewrite Hi.
  - destruct (promoted_ok _ _ _ _ _ _ _ Ca Cb J) as (a' & b' & va' & vb' & P & Ca' & Cb' & Aa & Ab).
    pose proof (proj2 (proj2 Ca)) as Ka. pose proof (proj2 (proj2 Cb)) as Kb.
    unfold lower_cmp. rewrite P. cbn [bind]. change (conv TBool) with (cty LB).
    destruct t; [destruct sa, sb; discriminate J| |].
    + destruct sa, sb; try discriminate J. destruct va as [|x|]; cbn in Ka; try contradiction. destruct vb as [|y|]; cbn in Kb; try contradiction.
      cbn in Aa, Ab. injection Aa as <-. injection Ab as <-.
      assert (C : code (CmpI pi a' b') LB (VB (ieval pi x y))).
      { unfold code. cbn [arith_type run]. rewrite (proj1 Ca'), (proj1 Cb'), (proj1 (proj2 Ca')), (proj1 (proj2 Cb')). now repeat split. }
      change (arith_int (cty LI)) with true. cbn iota. rewrite (cast_if_same _ _ _ C). exists (CmpI pi a' b'), (VB (ieval pi x y)).
      split; [reflexivity|]. split; [exact C|]. cbn. intros u [= <-]. rewrite ieval_holds. now rewrite Hi.
    + assert (exists x, va' = VR x /\ as_real va = Some x) as (x & -> & Rx) by (destruct va; cbn in Aa; inversion Aa; cbn; eauto).
      assert (exists y, vb' = VR y /\ as_real vb = Some y) as (y & -> & Ry) by (destruct vb; cbn in Ab; inversion Ab; cbn; eauto).
      assert (C : code (CmpF pf a' b') LB (VB (feval pf x y))).
      { unfold code. cbn [arith_type run]. rewrite (proj1 Ca'), (proj1 Cb'), (proj1 (proj2 Ca')), (proj1 (proj2 Cb')). now repeat split. }
      change (arith_int (cty LR)) with false. change (arith_float (cty LR)) with true. cbn iota. rewrite (cast_if_same _ _ _ C).
      exists (CmpF pf a' b'), (VB (feval pf x y)).
      split; [reflexivity|]. split; [exact C|]. intros u Hu. rewrite feval_holds. rewrite (Hf x y Rx Ry).
      * unfold compared in Hu. replace (order va vb) with (Some (SFcompare x y)) in Hu; [now injection Hu as <-|].
        destruct va, vb; cbn in Rx, Ry; try discriminate; injection Rx as <-; injection Ry as <-; cbn; try reflexivity.
        destruct sa, sb; cbn in Ka, Kb; contradiction || discriminate J.
      * destruct sa, sb; cbn in J; try discriminate; auto.
Qed.
Lemma lower_logic_ok : forall mf f a b va vb,
  (forall a b, arith_type (mf a b) = arith_type (AndI a b)) ->
  (forall a b x y, run henv a = Ok (i1 x) -> run henv b = Ok (i1 y) -> run henv (mf a b) = Ok (i1 (f x y))) ->
  code a LB va -> code b LB vb ->
  exists e v, lower_logic mf TBool a b = Ok e /\ code e LB v /\ (forall u, booleans f va vb = Some u -> v = u).
Proof.
  intros mf f a b va vb HT HR Ca Cb. pose proof (proj2 (proj2 Ca)) as Ka. pose proof (proj2 (proj2 Cb)) as Kb.
  destruct va as [x| |]; cbn in Ka; try contradiction. destruct vb as [y| |]; cbn in Kb; try contradiction.
  unfold lower_logic, not_zero. rewrite (proj1 Ca), (proj1 Cb). cbn [bind cty arith_int].
  assert (N : forall c k, code c LB (VB k) -> code (CmpI Ine c (CstI (TI 1) 0)) LB (VB k)).
  { intros c k (T & R & _). unfold code. cbn [arith_type run]. rewrite T, R. split; [reflexivity|]. split; [|exact I]. now destruct k. }
  pose proof (N _ _ Ca) as Na. pose proof (N _ _ Cb) as Nb.
  assert (C : code (mf (CmpI Ine a (CstI (TI 1) 0)) (CmpI Ine b (CstI (TI 1) 0))) LB (VB (f x y))).
  { unfold code. split; [|split; [|exact I]].
    - rewrite HT. cbn [arith_type]. rewrite (proj1 Ca), (proj1 Cb). reflexivity.
    - apply HR; [exact (proj1 (proj2 Na))|exact (proj1 (proj2 Nb))]. }
  change (conv TBool) with (cty LB). rewrite (cast_if_same _ _ _ C). eexists; exists (VB (f x y)). split; [reflexivity|]. split; [exact C|].
  cbn. now intros u [= <-].
Qed.
Lemma lower_neg_ok : forall a t v, code a t v -> t = LI \/ t = LR ->
  exists e w, lower_neg (ity t) a = Ok e /\ code e t w /\ (forall u, mean_un Neg v = Some u -> w = u).
Proof.
  intros a t v C H. pose proof (proj2 (proj2 C)) as K. unfold lower_neg. rewrite (proj1 C). cbn [bind]. rewrite conv_ity.
  destruct H as [-> | ->]; destruct v as [|z|f]; cbn in K; try contradiction; cbn [cty arith_int arith_float].
  - assert (C' : code (SubI (CstI (TI 64) 0) a) LI (VI (wrap (TI 64) (0 - z)))).
    { unfold code. cbn [arith_type run]. rewrite (proj1 C), (proj1 (proj2 C)). split; [reflexivity|]. split; [reflexivity|apply wrap64_range]. }
    same C'. eexists; eexists; split; [reflexivity|]. split; [exact C'|].
    cbn [mean_un]. intros u Hu. apply an_integer_Some in Hu. destruct Hu as [Hr ->]. rewrite wrap64; [reflexivity|exact Hr].
  - assert (C' : code (NegF a) LR (VR (SFopp f))).
    { unfold code. cbn [arith_type run]. rewrite (proj1 C), (proj1 (proj2 C)). now repeat split. }
    same C'. eexists; eexists; split; [reflexivity|]. split; [exact C'|].
    cbn. now intros u [= <-].
Qed.
Lemma lower_not_ok : forall a v, code a LB v ->
  exists e w, lower_not TBool a = Ok e /\ code e LB w /\ (forall u, mean_un Not v = Some u -> w = u).
Proof.
  intros a v C. pose proof (proj2 (proj2 C)) as K. destruct v as [b| |]; cbn in K; try contradiction.
  unfold lower_not. rewrite (proj1 C). cbn [bind cty arith_int].
  assert (C' : code (CmpI Ieq a (CstI (TI 1) 0)) LB (VB (negb b))).
  { unfold code. cbn [arith_type run]. rewrite (proj1 C), (proj1 (proj2 C)). split; [reflexivity|]. split; [|exact I]. now destruct b. }
  change (conv TBool) with (cty LB). same C'. eexists; eexists; split; [reflexivity|]. split; [exact C'|].
  cbn. now intros u [= <-].
Qed.

Lemma lower_ite_ok : forall c a b sa sb t k va vb, code c LB (VB k) -> code a sa va -> code b sb vb ->
  lang_ite sa sb = Some t -> (sa <> LI \/ sb <> LR) ->
  exists e v, lower_ite (ity t) c a b = Ok e /\ code e t v /\ at_type t (if k then va else vb) = Some v.
Proof.
  intros c a b sa sb t k va vb Cc Ca Cb L N.
  pose proof (proj2 (proj2 Ca)) as Ka. pose proof (proj2 (proj2 Cb)) as Kb.
  assert (G : generic (cty sa) (cty sb) = Ok (cty t)) by (destruct sa, sb; cbn in L; try discriminate; injection L as <-; reflexivity).
  assert (exists a' b' va' vb',
    (if ty_eqb (cty sb) (cty t) then Ok a else cast_arith (cty t) a) = Ok a' /\
    (if ty_eqb (cty sb) (cty t) then Ok b else cast_arith (cty t) b) = Ok b' /\
    code a' t va' /\ code b' t vb' /\ at_type t va = Some va' /\ at_type t vb = Some vb') as (a' & b' & va' & vb' & Ea & Eb & Ca' & Cb' & Aa & Ab).
  { destruct sa, sb; cbn in L; try discriminate; injection L as <-; try (destruct N; congruence);
      destruct va, vb; cbn in Ka, Kb; try contradiction; cbn [cty ty_eqb Z.eqb Pos.eqb].
    1,2,4: (do 4 eexists; do 2 (split; [reflexivity|]); split; [exact Ca|]; split; [exact Cb|]; split; reflexivity).
    destruct (cast_arith_ok _ LR LR _ _ Ca eq_refl (or_introl eq_refl)) as (a' & Ea & Ca').
    destruct (cast_arith_ok _ LI LR _ _ Cb eq_refl (or_intror (conj eq_refl eq_refl))) as (b' & Eb & Cb').
    do 4 eexists. split; [exact Ea|]. split; [exact Eb|]. split; [exact Ca'|]. split; [exact Cb'|]. split; reflexivity. }
  unfold lower_ite. rewrite (proj1 Ca), (proj1 Cb). cbn [bind]. rewrite G. cbn [bind]. rewrite Ea. cbn [bind]. rewrite Eb. cbn [bind].
  rewrite (proj1 Cc). cbn [bind cty ty_eqb Z.eqb Pos.eqb].
  assert (C : code (SelectA c a' b') t (if k then va' else vb')).
  { unfold code. cbn [arith_type run]. rewrite (proj1 Cc), (proj1 Ca'), (proj1 Cb'), (proj1 (proj2 Cc)), (proj1 (proj2 Ca')), (proj1 (proj2 Cb')).
    split; [now destruct t|]. split; [now destruct k|]. destruct k; [exact (proj2 (proj2 Ca'))|exact (proj2 (proj2 Cb'))]. }
  rewrite (proj1 C). cbn [bind]. rewrite conv_ity. rewrite (cast_if_same _ _ _ C). eexists; eexists; split; [reflexivity|]. split; [exact C|].
  now destruct k.
Qed.

Lemma lang_join : forall o a b t, lang_bin o a b = Some t ->
  match o with
  | Add | AddEW | Sub | SubEW | Mul | MulEW => join a b = Some t
  | Div | DivEW | Pow | PowEW => t = LR /\ exists s, join a b = Some s
  | Eq | Ne | Gt | Ge | Lt | Le => t = LB /\ ((a = LB /\ b = LB) \/ exists s, join a b = Some s)
  | And | Or => t = LB /\ a = LB /\ b = LB
  end.
Proof.
  intros [] [] [] t H; cbn in H; try discriminate; injection H as <-; cbn; eauto 6.
Qed.


Variable pow : spec_float -> spec_float -> spec_float.

(** The type the compiler gives is the type of the language. *)
Lemma lang_type_of : forall e t, lang_type e = Some t -> covered pow env e -> type_of e = Ok (ity t).
Proof.
  induction e as [a|n u|o a IHa|o a IHa b IHb|c IHc a IHa b IHb|u a IHa]; intros t L C; cbn in L, C |- *.
  - destruct a; cbn in L; inversion L; reflexivity.
  - apply lang_ty_ity in L. now subst.
  - destruct (lang_type a) as [ta|]; [|discriminate]. rewrite (IHa _ eq_refl C). cbn.
    destruct o, ta; cbn in L; inversion L; reflexivity.
  - destruct (lang_type a) as [ta|]; [|discriminate]. destruct (lang_type b) as [tb|]; [|discriminate].
    destruct C as (Ca & Cb & Co). rewrite (IHa _ eq_refl Ca), (IHb _ eq_refl Cb). cbn.
    destruct o, ta, tb; cbn in L; inversion L; try contradiction; try reflexivity. destruct Co as [Co|Co]; now elim Co.
  - destruct (lang_type c) as [[]|]; try discriminate. destruct (lang_type a) as [ta|]; [|discriminate]. destruct (lang_type b) as [tb|]; [|discriminate].
    destruct C as (Cc & Ca & Cb & Co). rewrite (IHc _ eq_refl Cc), (IHa _ eq_refl Ca), (IHb _ eq_refl Cb). cbn.
    destruct ta, tb; cbn in L; inversion L; reflexivity.
  - destruct (lang_type a) as [ta|]; [|discriminate]. rewrite (IHa _ eq_refl C). cbn.
    destruct ta, u; cbn in L; inversion L; reflexivity.
Qed.

Theorem lower_ok : forall e t, lang_type e = Some t -> well_valued env e -> covered pow env e ->
  exists c v, lower e = Ok c /\ code c t v /\ (forall u, meaning pow env e = Some u -> v = u).
Proof.
  induction e as [a|n u|o a IHa|o a IHa b IHb|c IHc a IHa b IHb|u a IHa]; intros t L W C;
    pose proof (lang_type_of _ _ L C) as T; cbn [lower].
  - destruct a as [k|z|f| |]; cbn in L; try discriminate; injection L as <-.
    + exists (CstI (TI 1) (if k then -1 else 0)), (VB k). split; [reflexivity|]. split; [repeat split|]. cbn. now intros u [= <-].
    + exists (CstI (TI 64) z), (VI z). split; [reflexivity|]. split; [repeat split; apply W|]. cbn. now intros u [= <-].
    + exists (CstF (TF 64) f), (VR f). split; [reflexivity|]. split; [repeat split|]. cbn. now intros u [= <-].
  - cbn in L, W. pose proof (lang_ty_ity _ _ L) as ->. rewrite L in W.
    exists (Arg n (conv (ity t))), (env n). split; [reflexivity|]. split; [|cbn; now intros w [= <-]].
    split; [rewrite conv_ity; now destruct t|]. split; [reflexivity|]. now apply has_type_kind.
  - rewrite T. cbn [bind]. cbn in L, W, C. destruct (lang_type a) as [ta|] eqn:La; [|discriminate].
    destruct (IHa _ eq_refl W C) as (ca & va & Ea & Ka & Ma). rewrite Ea. cbn [bind].
    assert (exists e v, lower_un o (ity t) ca = Ok e /\ code e t v /\ (forall u, mean_un o va = Some u -> v = u)) as (e & v & E & K & M).
    { destruct o; cbn [lower_un].
      - destruct ta; cbn in L; try discriminate; injection L as <-; [apply (lower_neg_ok _ LI)|apply (lower_neg_ok _ LR)]; auto.
      - destruct ta; cbn in L; try discriminate; injection L as <-. now apply lower_not_ok. }
    exists e, v. split; [exact E|]. split; [exact K|]. intros u Hu. cbn in Hu.
    destruct (meaning pow env a) as [w|] eqn:Mw; [|discriminate]. apply M. now rewrite (Ma w eq_refl).
  - rewrite T. cbn [bind]. cbn in L, W, C. destruct (lang_type a) as [ta|] eqn:La; [|discriminate]. destruct (lang_type b) as [tb|] eqn:Lb; [|discriminate].
    destruct C as (Ca & Cb & Co). destruct W as (Wa & Wb).
    destruct (IHa _ eq_refl Wa Ca) as (ca & va & Ea & Ka & Ma). destruct (IHb _ eq_refl Wb Cb) as (cb & vb & Eb & Kb & Mb).
    rewrite Ea, Eb. cbn [bind].
    assert (exists e v, lower_bin o (ity t) ca cb = Ok e /\ code e t v /\
      (meaning pow env a = Some va -> meaning pow env b = Some vb -> forall u, mean_bin pow o va vb = Some u -> v = u)) as (e & v & E & K & M).
    { pose proof (lang_join _ _ _ _ L) as J.
      pose proof (proj2 (proj2 Ka)) as KKa. pose proof (proj2 (proj2 Kb)) as KKb.
      destruct o; cbn [lower_bin mean_bin]; try contradiction.
      1,2: destruct (lower_add_ok _ _ _ _ _ _ _ Ka Kb J) as (e & v & E & K & M); exists e, v; auto.
      1: destruct (lower_sub_ok _ _ _ _ _ _ _ Ka Kb J) as (e & v & E & K & M); exists e, v; auto.
      1,2: destruct (lower_mul_ok _ _ _ _ _ _ _ Ka Kb J) as (e & v & E & K & M); exists e, v; auto.
      1,2: destruct J as (-> & s & J); destruct (lower_div_ok _ _ _ _ _ _ _ Ka Kb J) as (e & v & E & K & M); exists e, v; auto.
      7,8: destruct J as (-> & -> & ->).
      7: destruct (lower_logic_ok AndI andb ca cb va vb) as (e & v & E & K & M); [reflexivity|intros ? ? x y Hx Hy; cbn [run]; rewrite Hx, Hy; destruct x, y; reflexivity|assumption|assumption|]; exists e, v; auto.
      7: destruct (lower_logic_ok OrI orb ca cb va vb) as (e & v & E & K & M); [reflexivity|intros ? ? x y Hx Hy; cbn [run]; rewrite Hx, Hy; destruct x, y; reflexivity|assumption|assumption|]; exists e, v; auto.
      all: destruct J as (-> & J).
      all: match goal with |- exists e v, lower_cmp ?pi ?pf _ _ _ = _ /\ _ /\ (_ -> _ -> forall u, compared ?f _ _ = _ -> _) =>
             assert (Hi : forall c, i_holds pi c = f (Some c)) by (now intros [])
           end.
      2: { (* <> *)
        assert (Hd : (exists x y, as_real va = Some x /\ as_real vb = Some y /\ (ta = LR \/ tb = LR) /\ SFcompare x y = None) \/
                     (forall x y, as_real va = Some x -> as_real vb = Some y -> ta = LR \/ tb = LR -> SFcompare x y <> None)).
        { destruct (as_real va) as [x|] eqn:Rx; [|right; discriminate].
          destruct (as_real vb) as [y|] eqn:Ry; [|right; discriminate].
          destruct (SFcompare x y) eqn:Ec; [right; intros ? ? [= <-] [= <-]; congruence|].
          destruct ta; [| |left; exists x, y; auto]; (destruct tb; [| |left; exists x, y; auto]);
            right; intros x0 y0 _ _ [|]; discriminate. }
        destruct Hd as [(x & y & Rx & Ry & HL & Hn)|Hd].
        - (* a NaN: the meaning is excluded *)
          destruct (lower_cmp_ok Ine Fone (f_holds Fone) ca cb ta tb va vb) as (e & v & E & K & M);
            [now intros []|reflexivity|auto|assumption|assumption|assumption|].
          exists e, v. split; [exact E|]. split; [exact K|]. intros Mva Mvb. exfalso.
          assert (Hnan : x = S754_nan \/ y = S754_nan).
          { clear - Hn. destruct x as [[]|[]| |[] ? ?], y as [[]|[]| |[] ? ?]; cbn in Hn; auto; try discriminate;
              match goal with H : match ?c with _ => _ end = None |- _ => destruct c; discriminate end. }
          assert (Hnear : forall z, nearest z <> S754_nan).
          { intros z. apply normalize_not_nan. }
          destruct Hnan as [-> | ->].
          + destruct va as [| |f]; cbn in Rx; try discriminate; injection Rx as Rx; [now apply Hnear in Rx|]. subst f.
            now apply (Co (VR S754_nan) (or_introl Mva)).
          + destruct vb as [| |f]; cbn in Ry; try discriminate; injection Ry as Ry; [now apply Hnear in Ry|]. subst f.
            now apply (Co (VR S754_nan) (or_intror Mvb)).
        - destruct (lower_cmp_ok Ine Fone (fun c => match c with Some Datatypes.Eq => false | _ => true end) ca cb ta tb va vb)
            as (e & v & E & K & M); [exact Hi| |auto|assumption|assumption|assumption|exists e, v; auto].
          intros x y Rx Ry HL. specialize (Hd x y Rx Ry HL). destruct (SFcompare x y) as [[]|]; try reflexivity. now elim Hd. }
      all: match goal with |- exists e v, lower_cmp ?pi ?pf _ _ _ = _ /\ _ /\ (_ -> _ -> forall u, compared ?f _ _ = _ -> _) =>
             destruct (lower_cmp_ok pi pf f ca cb ta tb va vb) as (e & v & E & K & M);
               [exact Hi|intros x y _ _ _; now destruct (SFcompare x y) as [[]|]| |assumption|assumption|assumption|exists e, v; auto]
           end.
      1: auto.
      all: intros -> ->; destruct Co as [Co|Co]; now elim Co. }
    exists e, v. split; [exact E|]. split; [exact K|]. intros u Hu. cbn in Hu.
    destruct (meaning pow env a) as [wa|] eqn:Mwa; [|discriminate]. destruct (meaning pow env b) as [wb|] eqn:Mwb; [|discriminate].
    pose proof (Ma wa eq_refl) as Ha. pose proof (Mb wb eq_refl) as Hb. subst wa wb. now apply M.
  - rewrite T. cbn [bind]. cbn in L, W, C.
    destruct (lang_type c) as [[]|] eqn:Lc; try discriminate. destruct (lang_type a) as [ta|] eqn:La; [|discriminate]. destruct (lang_type b) as [tb|] eqn:Lb; [|discriminate].
    destruct C as (Cc & Ca & Cb & Co). destruct W as (Wc & Wa & Wb).
    destruct (IHc _ eq_refl Wc Cc) as (cc & vc & Ec & Kc & Mc).
    destruct (IHa _ eq_refl Wa Ca) as (ca & va & Ea & Ka & Ma). destruct (IHb _ eq_refl Wb Cb) as (cb & vb & Eb & Kb & Mb).
    rewrite Ec, Ea, Eb. cbn [bind].
    pose proof (proj2 (proj2 Kc)) as KKc. destruct vc as [k| |]; cbn in KKc; try contradiction.
    destruct (lower_ite_ok cc ca cb ta tb t k va vb Kc Ka Kb L) as (e & v & E & K & M).
    { destruct Co as [Co|Co]; [left|right]; congruence. }
    exists e, v. split; [exact E|]. split; [exact K|]. intros u Hu. cbn in Hu.
    rewrite Lc, La, Lb in Hu. destruct (meaning pow env c) as [wc|] eqn:Mwc; [|discriminate].
    rewrite <- (Mc wc eq_refl) in Hu. rewrite L in Hu.
    destruct k.
    + destruct (meaning pow env a) as [wa|] eqn:Mwa; [|discriminate]. rewrite (Ma wa eq_refl) in M. congruence.
    + destruct (meaning pow env b) as [wb|] eqn:Mwb; [|discriminate]. rewrite (Mb wb eq_refl) in M. congruence.
  - cbn in L, W, C. destruct (lang_type a) as [ta|] eqn:La; [|discriminate].
    destruct (IHa _ eq_refl W C) as (ca & va & Ea & Ka & Ma). rewrite Ea. cbn [bind].
    assert (Hu : lang_ty u = Some t /\ (t = ta \/ (ta = LI /\ t = LR))).
    { destruct ta, u; cbn in L; try discriminate; injection L as <-; cbn; auto. }
    destruct Hu as [Hu HL]. pose proof (lang_ty_ity _ _ Hu) as ->.
    assert (exists w, at_type t va = Some w) as [w Hw].
    { pose proof (proj2 (proj2 Ka)) as KKa. destruct HL as [->|[-> ->]]; [destruct ta|]; destruct va; cbn in KKa; try contradiction; cbn; eauto. }
    destruct (cast_arith_ok _ _ _ _ _ Ka Hw HL) as (e & E & K).
    exists e, w. split; [rewrite cast_arith_conv, conv_ity; exact E|]. split; [exact K|].
    intros x Hx. cbn in Hx. destruct (meaning pow env a) as [wa|] eqn:Mwa; [|discriminate]. rewrite Hu in Hx. rewrite (Ma wa eq_refl) in Hw. congruence.
Qed.
End Run.
