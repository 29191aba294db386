(** The parser of classes against the grammar. *)
From Coq Require Import ZArith QArith List Bool String Lia.
From Verif Require Import Result LexerModel LexerProofs ParserModel ParserSpec ParserProofs ParserCompleteProofs
  BlockParserModel BlockParserSpec BlockParserProofs ClassParserModel ClassParserSpec.
Import ListNotations.
Local Open Scope nat_scope.
Local Open Scope list_scope.

Lemma take_sound : forall w ts b r, take w ts = (b, r) -> exists a, ts = a ++ r /\ g_flag w a b.
Proof.
  intros w ts b r H. unfold take in H.
  assert (D : (false, ts) = (b, r) -> exists a, ts = a ++ r /\ g_flag w a b).
  { intros Q. injection Q as <- <-. exists []. split; auto. constructor. }
  destruct ts as [|t ts]; [auto|]. destruct t; auto. destruct (word_eq_dec w w0); auto.
  injection H as <- <-. subst w0. exists [KWord w]. split; auto. constructor.
Qed.
Lemma comment_sound : forall ts, exists c, ts = c ++ skip_string ts /\ g_comment c.
Proof.
  intros ts. destruct ts as [|t ts]; [exists []; split; [reflexivity|constructor]|].
  destruct t; try (exists []; split; [reflexivity|constructor]).
  exists [KStr s]. split; [reflexivity|constructor].
Qed.
Lemma is_comma_eq : forall t, is_comma t = true -> t = KComma. Proof. now destruct t. Qed.

Tactic Notation "next" "as" ident(l) :=
  match goal with
  | H : match ?r with _ => _ end = ret _ _ |- _ =>
      destruct r as [|? l]; [discriminate H|];
      match type of H with match ?t with _ => _ end = _ => destruct t; try discriminate H end
  end.

(** * Modifications are those of the grammar *)
Section ModificationSound.
  Variable M : list tk -> pres modif.
  Variable n : nat.
  Variable G : list tk -> modif -> Prop.
  Hypothesis SM : sound M G.
  Lemma s_m_element : forall each final a b, g_flag WEach a each -> g_flag WFinal b final ->
    forall ts x r, m_element M each final ts = ret x r -> exists u, ts = u ++ r /\ g_element false G (a ++ b ++ u) x.
  Proof.
    intros each final a b Da Db ts x r H. unfold m_element in H. next as l. destruct (head_is opens_modif l).
    - ptac. destruct (SM _ _ _ H0) as (u & -> & D). exists (KIdent s :: u). split; [lists|].
      rewrite <- (app_nil_r u). apply gem_modif; auto. constructor.
    - ptac. exists [KIdent s]. split; [lists|]. apply gem_plain; auto. constructor.
  Qed.
  Lemma s_m_argument : sound (m_argument M) (g_element false G).
  Proof.
    intros ts x r H. unfold m_argument in H.
    assert (D : (let (each, r) := take WEach ts in let (final, r1) := take WFinal r in
      match r1 with KWord WReplaceable :: _ => Bad | _ => m_element M each final r1 end) = ret x r ->
      exists u, ts = u ++ r /\ g_element false G u x).
    { clear H. intros H. destruct (take WEach ts) as [each r0] eqn:T0. destruct (take WFinal r0) as [final r1] eqn:T1.
      destruct (take_sound _ _ _ _ T0) as (a & -> & Da). destruct (take_sound _ _ _ _ T1) as (b & -> & Db).
      assert (Q : m_element M each final r1 = ret x r).
      { destruct r1 as [|t r1]; auto. destruct t; auto. destruct w; auto. discriminate. }
      destruct (s_m_element _ _ _ _ Da Db _ _ _ Q) as (u & -> & D). exists (a ++ b ++ u). split; [lists|exact D]. }
    destruct ts as [|t ts]; [auto|]. destruct t; auto. destruct w; auto. discriminate.
  Qed.
  Lemma s_m_class : sound (m_class M n) (g_class_modif false G).
  Proof.
    intros ts x r H. unfold m_class in H. next. ptac.
    destruct (sep_loop_sound _ _ _ _ KComma s_m_argument is_comma_eq _ _ _ _ _ H0) as (u & l' & -> & -> & D).
    next. ptac. exists (KLPar :: u ++ [KRPar]). split; [lists|]. now constructor.
  Qed.
  Lemma s_m_modification : sound (m_modification M n) (g_modification false true G).
  Proof.
    intros ts x r H. unfold m_modification in H.
    assert (D : ptry (m_class M n ts) (fun l r => match r with
        | KAssign :: r1 => ptry (parse_expression r1) (fun e r2 => ret (Modif (Some l) (Some e)) r2)
        | _ => ret (Modif (Some l) None) r end) = ret x r ->
      exists u, ts = u ++ r /\ g_modification false true G u x).
    { clear H. intros H. ptac. destruct (s_m_class _ _ _ H0) as (u & -> & D).
      assert (Df : ret (Modif (Some x0) None) x1 = ret x r ->
        exists v, u ++ x1 = v ++ r /\ g_modification false true G v x).
      { intros Q. ptac. exists u. split; auto. now apply gmo_class. }
      destruct x1 as [|t x1]; [auto|]. destruct t; auto. ptac.
      destruct (parse_expression_sound _ _ _ H1) as (u1 & -> & D1).
      exists (u ++ KAssign :: u1). split; [lists|]. now apply gmo_class_eq. }
    destruct ts as [|t ts]; [auto|]. destruct t; auto; ptac;
      destruct (parse_expression_sound _ _ _ H0) as (u1 & -> & D1); eexists (_ :: u1);
      (split; [reflexivity|now constructor]).
  Qed.
End ModificationSound.
Lemma modif_sound : forall n, sound (modif_fuel n) (g_modif_depth false true n).
Proof.
  induction n; [intros ts x r H; discriminate|]. cbn [g_modif_depth]. intros ts x r H.
  now apply (s_m_modification _ _ _ IHn) in H.
Qed.
Lemma parse_modification_sound : sound parse_modification (g_modif false true).
Proof.
  intros ts x r H. destruct (modif_sound _ _ _ _ H) as (u & -> & D). exists u. split; auto. eexists; exact D.
Qed.
Lemma parse_class_modification_sound : sound parse_class_modification (g_class_modif false (g_modif false true)).
Proof. intros ts x r H. exact (s_m_class _ _ _ parse_modification_sound _ _ _ H). Qed.
Lemma parse_annotation_sound : sound parse_annotation (fun ts l => g_annotation false true ts (Some l)).
Proof.
  intros ts x r H. unfold parse_annotation in H. next. destruct w; try discriminate.
  destruct (parse_class_modification_sound _ _ _ H) as (u & -> & D). exists (KWord WAnnotation :: u). split; auto.
  now constructor.
Qed.

(** * Components *)
Lemma variability_sound : forall ts v r, t_variability ts = (v, r) -> exists a, ts = a ++ r /\ g_variability a v.
Proof.
  intros ts v r H. unfold t_variability in H.
  assert (D : (NoVariability, ts) = (v, r) -> exists a, ts = a ++ r /\ g_variability a v).
  { intros Q. injection Q as <- <-. exists []. split; auto. constructor. }
  destruct ts as [|t ts]; [auto|]. destruct t; auto. destruct w; auto; injection H as <- <-;
    eexists [_]; (split; [reflexivity|constructor]).
Qed.
Lemma causality_sound : forall ts v r, t_causality ts = (v, r) -> exists a, ts = a ++ r /\ g_causality a v.
Proof.
  intros ts v r H. unfold t_causality in H.
  assert (D : (NoCausality, ts) = (v, r) -> exists a, ts = a ++ r /\ g_causality a v).
  { intros Q. injection Q as <- <-. exists []. split; auto. constructor. }
  destruct ts as [|t ts]; [auto|]. destruct t; auto. destruct w; auto; injection H as <- <-;
    eexists [_]; (split; [reflexivity|constructor]).
Qed.
Lemma dimension_sound : sound t_dimension (g_dim false true).
Proof.
  intros ts x r H. unfold t_dimension in H.
  assert (D : (forall z r, ts <> KInt z :: r) -> ptry (parse_expression ts) (fun e r => ret (DExpr e) r) = ret x r ->
    exists u, ts = u ++ r /\ g_dim false true u x).
  { clear H. intros N H. ptac. destruct (parse_expression_sound _ _ _ H0) as (u & -> & D). exists u. split; auto.
    apply gdi_expr; auto. left. intros z r' ->. eapply N. reflexivity. }
  destruct ts as [|t ts]; [apply D; auto; discriminate|]. destruct t; try (apply D; auto; discriminate); ptac.
  - eexists [_]. split; [reflexivity|constructor].
  - eexists [_]. split; [reflexivity|constructor].
Qed.
Lemma dimensions_sound : sound t_dimensions (g_dims false true).
Proof.
  intros ts x r H. unfold t_dimensions in H.
  assert (D : ret [] ts = ret x r -> exists u, ts = u ++ r /\ g_dims false true u x).
  { intros Q. ptac. exists []. split; auto. constructor. }
  destruct ts as [|t ts]; [auto|]. destruct t; auto. ptac.
  destruct (sep_loop_sound _ _ _ _ KComma dimension_sound is_comma_eq _ _ _ _ _ H0) as (u & l' & -> & -> & D').
  next. ptac. exists (KLSq :: u ++ [KRSq]). split; [lists|]. now constructor.
Qed.
Lemma path_sound : forall n acc ts l r, t_path n acc ts = ret l r ->
  exists u l', ts = u ++ r /\ l = acc ++ l' /\ forall s, separated g_ident KDot (KIdent s :: u) (s :: l').
Proof.
  induction n; intros acc ts l r H; [discriminate|]. cbn [t_path] in H.
  assert (D : ret acc ts = ret l r -> exists u l', ts = u ++ r /\ l = acc ++ l' /\
    forall s, separated g_ident KDot (KIdent s :: u) (s :: l')).
  { intros Q. ptac. exists [], []. rewrite app_nil_r. split; auto. split; auto. intros s. apply sep_one. constructor. }
  destruct ts as [|t ts]; [auto|]. destruct t; auto. clear D. next.
  destruct (IHn _ _ _ _ H) as (u & l' & -> & -> & D). exists (KDot :: KIdent s :: u), (s :: l').
  split; [lists|]. split; [lists|]. intros s'. apply (sep_more _ _ [KIdent s']); auto. constructor.
Qed.
Lemma text_eqb_sound : forall a b, text_eqb a b = true -> a = b.
Proof. intros a b. apply text_eqb_eq. Qed.
Lemma builtin_spec : forall s, match builtin s with
  | Some v => In (s, v) predefined
  | None => ~ In s (map fst predefined)
  end.
Proof.
  intros s. unfold builtin, predefined. cbn [map fst In].
  destruct (text_eqb s (codes "String")) eqn:A; [apply text_eqb_sound in A; subst; auto|].
  destruct (text_eqb s (codes "Boolean")) eqn:B; [apply text_eqb_sound in B; subst; auto|].
  destruct (text_eqb s (codes "Integer")) eqn:C; [apply text_eqb_sound in C; subst; auto|].
  destruct (text_eqb s (codes "Real")) eqn:D; [apply text_eqb_sound in D; subst; auto|].
  assert (R : forall a, text_eqb a a = true) by (intros a; now apply text_eqb_eq).
  intros [H|[H|[H|[H|[]]]]]; subst s; rewrite R in *; discriminate.
Qed.
Lemma type_sound : forall ts v ds r, t_type ts = ret (v, ds) r ->
  exists u w, ts = u ++ w ++ r /\ g_name u v /\ g_dims false true w ds.
Proof.
  intros ts v ds r H. unfold t_type in H.
  assert (exists a g r0, ts = a ++ r0 /\ g_dot a g /\
    (match ts with KDot :: r => (true, r) | _ => (false, ts) end) = (g, r0)) as (a & g & r0 & -> & Da & Eq).
  { destruct ts as [|t ts]; [exists [], false, []; repeat split; constructor|].
    destruct t; try (eexists [], false, _; split; [reflexivity|split; [constructor|reflexivity]]).
    exists [KDot], true, ts. repeat split. constructor. }
  rewrite Eq in H. clear Eq. next. ptac.
  match goal with Q : (_, _) = (_, _) |- _ => injection Q as -> -> end.
  destruct (dimensions_sound _ _ _ H1) as (w & -> & Dw).
  pose proof (builtin_spec s) as B. destruct (builtin s) as [v'|].
  - ptac. exists (a ++ [KIdent s]), w. split; [lists|]. split; auto. eapply gna_predefined; eauto.
  - ptac. match goal with Q : t_path _ _ _ = _ |- _ => rename Q into P end. destruct (path_sound _ _ _ _ _ P) as (u & l' & -> & -> & D).
    exists (a ++ KIdent s :: u), w. split; [lists|]. split; auto. cbn [app]. apply gna_user; auto.
Qed.
Lemma element_sound : forall public, sound (t_element public) (g_component false true public).
Proof.
  intros public ts x r H. unfold t_element in H.
  destruct (take WFinal ts) as [fin r0] eqn:T0. destruct (take_sound _ _ _ _ T0) as (a & -> & Da).
  destruct (t_variability r0) as [v r1] eqn:T1. destruct (variability_sound _ _ _ T1) as (b & -> & Db).
  destruct (t_causality r1) as [k r2] eqn:T2. destruct (causality_sound _ _ _ T2) as (c & -> & Dc).
  ptac. destruct x0 as [t ds]. destruct (type_sound _ _ _ _ H0) as (d & e & -> & Dd & De).
  next as l. ptac.
  assert (exists f, l = f ++ x1 /\ g_value false true f x0) as (f & -> & Df).
  { assert (D : ret None l = ret x0 x1 -> exists f, l = f ++ x1 /\ g_value false true f x0).
    { intros Q. ptac. exists []. split; auto. constructor. }
    assert (D' : (forall r, l <> KAssignOp :: r) ->
      ptry (parse_modification l) (fun m r5 => ret (Some m) r5) = ret x0 x1 ->
      exists f, l = f ++ x1 /\ g_value false true f x0).
    { intros N Q. apply ptry_inv in Q. destruct Q as (m & r5 & H & Q). ptac. destruct (parse_modification_sound _ _ _ H) as (u & -> & D'). exists u. split; auto.
      apply gvl_some; auto. right. intros r' ->. eapply N. reflexivity. }
    destruct l as [|t' l]; [auto|]. destruct t'; auto; apply D'; auto; discriminate. }
  destruct (comment_sound x1) as (g & Eq & Dg). set (r6 := skip_string x1) in *. clearbody r6. subst x1.
  assert (exists h an, r6 = h ++ r /\ g_annotation false true h an) as (h & an & -> & Dh).
  { assert (D : ret tt r6 = ret x2 r -> exists h an, r6 = h ++ r /\ g_annotation false true h an).
    { intros Q. ptac. exists [], None. split; auto. constructor. }
    destruct r6 as [|t' r6]; [auto|]. destruct t'; auto. destruct w; auto. apply ptry_inv in H2. destruct H2 as (l' & r7 & H & Q). ptac.
    destruct (parse_annotation_sound _ _ _ H) as (u & -> & D'). eauto. }
  exists (a ++ b ++ c ++ d ++ e ++ KIdent s :: f ++ g ++ h). split; [lists|].
  cbn [fst snd]. eapply gcp; eauto.
Qed.

(** * What comes after the sections *)
Lemma external_args_sound : forall n acc ts l r, external_args n acc ts = ret l r ->
  (exists r', r = KRPar :: r') /\
  exists u l', ts = u ++ r /\ l = acc ++ l' /\ g_external_args false true u l'.
Proof.
  induction n; intros acc ts l r H; [discriminate|]. cbn [external_args] in H.
  assert (D : ptry (parse_expression ts) (fun e r => match r with
      | KRPar :: _ => external_args n (acc ++ [e]) r
      | KComma :: r1 => external_args n (acc ++ [e]) r1
      | _ => Ok None end) = ret l r ->
    (exists r', r = KRPar :: r') /\
    exists u l', ts = u ++ r /\ l = acc ++ l' /\ g_external_args false true u l').
  { clear H. intros H. ptac. destruct (parse_expression_sound _ _ _ H0) as (u & -> & D).
    destruct x0 as [|t x0]; [discriminate|]. destruct t; try discriminate.
    - destruct (IHn _ _ _ _ H) as ((r' & ->) & u' & l' & -> & -> & D'). split; [eauto|].
      exists (u ++ KComma :: u'), (x :: l'). split; [lists|]. split; [lists|].
      destruct D' as [|ts' l' D'|ts' l' _ D'].
      + apply gea_comma; auto. now apply sep_one.
      + apply gea_some. now apply sep_more.
      + replace (u ++ KComma :: ts' ++ [KComma]) with ((u ++ KComma :: ts') ++ [KComma]) by lists.
        apply gea_comma; auto. now apply sep_more.
    - destruct (IHn _ _ _ _ H) as ((r' & ->) & u' & l' & Eq & -> & D'). split; [eauto|].
      assert (u' = [] /\ l' = []) as [-> ->].
      { destruct n; [discriminate|]. cbn [external_args] in H. ptac.
        assert (u' = []).
        { injection H1 as ->. apply (f_equal (@List.length tk)) in Eq. rewrite app_length in Eq. cbn in Eq. destruct u'; auto. cbn in Eq. lia. }
        subst u'. split; auto.
        assert (N : forall us ls, separated (g_expr false true) KComma us ls -> us <> []).
        { intros us ls [? ? Dx|? ? ? ? Dx _]; apply g_expr_tokens in Dx; destruct ts; auto; discriminate. }
        inversion D' as [|? ? Dx|? ? ? Dx Dy Dz]; subst; auto; [now apply N in Dx|]. destruct ts; discriminate. }
      exists u, [x]. cbn in Eq. rewrite Eq. split; [lists|]. split; [lists|]. apply gea_some. now apply sep_one. }
  destruct ts as [|t ts]; [auto|]. destruct t; auto. ptac. split; [eauto|].
  exists [], []. rewrite app_nil_r. repeat split. constructor.
Qed.
Lemma external_call_sound : sound external_call_of (fun ts c => g_external_call false true ts (Some c)).
Proof.
  intros ts x r H. unfold external_call_of in H. ptac.
  assert (exists a, ts = a ++ x1 /\ g_destination false true a x0) as (a & -> & Da).
  { assert (D : ptry (r_reference ts) (fun d r => match r with KAssign :: r1 => ret (Some d) r1 | _ => Ok None end)
      = ret x0 x1 -> exists a, ts = a ++ x1 /\ g_destination false true a x0).
    { clear H0. intros Q. ptac. unfold r_reference in H0.
      destruct (any_reference_sound _ _ _ parse_expression_sound _ _ _ H0) as (u & -> & D).
      next. ptac. exists (u ++ [KAssign]). split; [lists|]. now constructor. }
    destruct ts as [|t ts]; [auto|]. destruct t; auto. destruct ts as [|t ts]; [auto|]. destruct t; auto.
    ptac. exists []. split; auto. constructor. }
  destruct x1 as [|t x1]; [discriminate|]. destruct t; try discriminate.
  destruct x1 as [|t x1]; [discriminate|]. destruct t; try discriminate. ptac.
  destruct (external_args_sound _ _ _ _ _ H1) as ((r' & ->) & u & l' & -> & -> & D). ptac.
  exists (a ++ KIdent s :: KLPar :: u ++ [KRPar]). split; [lists|]. now constructor.
Qed.
Lemma external_sound : sound external_clause (g_external false true).
Proof.
  intros ts x r H. unfold external_clause in H.
  assert (D : ret None ts = ret x r -> exists u, ts = u ++ r /\ g_external false true u x).
  { intros Q. ptac. exists []. split; auto. constructor. }
  destruct ts as [|t ts]; [auto|]. destruct t; auto. destruct w; auto. clear D.
  assert (exists a l r0, ts = a ++ r0 /\ g_language a l /\
    (match ts with KStr s :: r1 => (Some s, r1) | _ => (None, ts) end) = (l, r0)) as (a & l & r0 & -> & Da & Eq).
  { destruct ts as [|t ts]; [exists [], None, []; repeat split; constructor|].
    destruct t; try (eexists [], None, _; split; [reflexivity|split; [constructor|reflexivity]]).
    exists [KStr s], (Some s), ts. repeat split. constructor. }
  rewrite Eq in H. clear Eq. ptac.
  assert (exists b, r0 = b ++ x1 /\ g_external_call false true b x0) as (b & -> & Db).
  { assert (D : ret None r0 = ret x0 x1 -> exists b, r0 = b ++ x1 /\ g_external_call false true b x0).
    { intros Q. ptac. exists []. split; auto. constructor. }
    destruct r0 as [|t r0]; [auto|]. destruct t; auto; ptac; apply external_call_sound; auto. }
  assert (exists d, x1 = d ++ x3 /\ g_annotation false true d x2) as (d & -> & Dd).
  { assert (D : ptry (parse_annotation x1) (fun a r3 => ret (Some a) r3) = ret x2 x3 ->
      exists d, x1 = d ++ x3 /\ g_annotation false true d x2).
    { clear H1. intros Q. ptac. now apply parse_annotation_sound. }
    destruct x1 as [|t x1]; [auto|]. destruct t; auto. ptac. exists []. split; auto. constructor. }
  next. ptac. exists (KWord WExternal :: a ++ b ++ d ++ [KSemi]). split; [lists|]. now constructor.
Qed.
Lemma class_annotation_sound : sound class_annotation (g_class_annotation false true).
Proof.
  intros ts x r H. unfold class_annotation in H.
  assert (D : ret None ts = ret x r -> exists u, ts = u ++ r /\ g_class_annotation false true u x).
  { intros Q. ptac. exists []. split; auto. constructor. }
  destruct ts as [|t ts]; [auto|]. destruct t; auto. destruct w; auto. ptac.
  destruct (parse_annotation_sound _ _ _ H0) as (u & -> & Du). next. ptac.
  exists (u ++ [KSemi]). split; [lists|]. now constructor.
Qed.
Lemma kind_sound : sound class_kind g_kind.
Proof.
  assert (Op : forall ts, exists a op, ts = a ++ snd (take WOperator ts) /\ g_flag WOperator a op).
  { intros ts. destruct (take WOperator ts) as [op r] eqn:T. destruct (take_sound _ _ _ _ T) as (a & -> & D). cbn. eauto. }
  intros ts x r H. unfold class_kind in H. next as l. destruct w; try discriminate; ptac.
  - next. destruct w; try discriminate; ptac.
    + exists [KWord WOperator; KWord WRecord]. split; auto. apply (gki_record [KWord WOperator] true). constructor.
    + exists [KWord WOperator; KWord WFunction]. split; auto. apply (gki_function [KWord WOperator] true). constructor.
  - exists [KWord WRecord]. split; auto. apply (gki_record [] false). constructor.
  - exists [KWord WFunction]. split; auto. apply (gki_function [] false). constructor.
  - exists [KWord WModel]. split; auto. constructor.
  - exists [KWord WPackage]. split; auto. constructor.
  - destruct (Op l) as (a & op & Eq & D). set (r0 := snd _) in *. clearbody r0. subst l.
    next. destruct w; try discriminate. ptac. exists (KWord WPure :: a ++ [KWord WFunction]). split; [lists|].
    eapply gki_pure; eauto.
  - destruct (Op l) as (a & op & Eq & D). set (r0 := snd _) in *. clearbody r0. subst l.
    next. destruct w; try discriminate. ptac. exists (KWord WImpure :: a ++ [KWord WFunction]). split; [lists|].
    eapply gki_impure; eauto.
  - exists [KWord WClass]. split; auto. constructor.
Qed.
Lemma der_vars_sound : forall n acc ts l r, der_vars n acc ts = ret l r ->
  (l = acc /\ r = ts) \/
  exists u l', ts = KComma :: u ++ r /\ l = acc ++ l' /\ separated (g_expr false true) KComma u l'.
Proof.
  induction n; intros acc ts l r H; [discriminate|]. cbn [der_vars] in H.
  destruct ts as [|t ts]; [ptac; auto|]. destruct t; try (ptac; now auto). ptac. right.
  destruct (parse_expression_sound _ _ _ H0) as (u & -> & D).
  destruct (IHn _ _ _ _ H) as [[-> ->]|(u' & l' & -> & -> & D')].
  - exists u, [x]. repeat split; auto. now apply sep_one.
  - exists (u ++ KComma :: u'), (x :: l'). split; [lists|]. split; [lists|]. now apply sep_more.
Qed.
Lemma derivative_sound : forall k s ts x r, derivative k s ts = ret x r ->
  exists p u b f l c, k = CFunction p /\ ts = u ++ r /\ g_derivative false true b f l /\ g_comment c /\
  u = KDer :: KLPar :: b ++ KRPar :: c ++ [KSemi] /\ x = PartialDer s f l.
Proof.
  intros k s ts x r H. unfold derivative in H. destruct k as [| | |p]; try discriminate.
  next. next. apply ptry_inv in H. destruct H as (f & r0 & H0 & H).
  apply ptry_inv in H. destruct H as (vars & r1 & H1 & H).
  destruct (parse_expression_sound _ _ _ H0) as (u & -> & D).
  assert (exists c r', r1 = KRPar :: c ++ KSemi :: r' /\ g_comment c /\ x = PartialDer s f vars /\ r = r')
    as (c & r' & -> & Dc & -> & ->).
  { destruct r1 as [|t r1]; [discriminate|]. destruct t; try discriminate.
    destruct (comment_sound r1) as (c & Ec & Dc). destruct (skip_string r1) as [|t r2]; [discriminate|].
    destruct t; try discriminate. ptac. exists c, r. auto. }
  destruct (der_vars_sound _ _ _ _ _ H1) as [[-> Eq]|(u' & l' & -> & -> & D')].
  - exists p, (KDer :: KLPar :: u ++ KRPar :: c ++ [KSemi]), u, f, [], c.
    split; auto. split; [rewrite <- Eq; lists|]. split; [now apply gdv_one|]. auto.
  - exists p, (KDer :: KLPar :: (u ++ KComma :: u') ++ KRPar :: c ++ [KSemi]), (u ++ KComma :: u'), f, l', c.
    split; auto. split; [lists|]. split; [now apply gdv_more|]. auto.
Qed.

(** * The body of a class *)
Lemma parse_equation_sound : sound parse_equation (g_eqn false true).
Proof.
  intros ts x r H. destruct (equation_sound _ _ _ _ H) as (u & -> & D). exists u. split; auto. eexists; exact D.
Qed.
Lemma parse_statement_sound : sound parse_statement (g_stmt false true).
Proof.
  intros ts x r H. destruct (statement_sound _ _ _ _ H) as (u & -> & D). exists u. split; auto. eexists; exact D.
Qed.
Lemma equation_section_sound : forall n ts x r, equation_section n ts = ret x r ->
  exists i a initial l, ts = (i ++ KWord WEquation :: a) ++ r /\ x = (initial, l) /\ g_flag WInitial i initial /\
  g_block (g_eqn false true) a l /\ head_is equation_stop r = true.
Proof.
  intros n ts x r H. unfold equation_section in H.
  destruct (take WInitial ts) as [initial r0] eqn:T. destruct (take_sound _ _ _ _ T) as (i & -> & Di).
  next. destruct w; try discriminate. apply ptry_inv in H. destruct H as (l1 & r1 & H0 & H).
  destruct (block_sound _ _ _ parse_equation_sound _ _ _ _ _ H0) as (a & l' & -> & -> & D & Hs). ptac.
  exists i, a, initial, l'. split; [lists|]. auto.
Qed.
Lemma algorithm_section_sound : forall n ts l r, algorithm_section n ts = ret l r ->
  exists a, ts = (KWord WAlgorithm :: a) ++ r /\ g_block (g_stmt false true) a l /\
  head_is algorithm_stop r = true.
Proof.
  intros n ts l r H. unfold algorithm_section in H. next. destruct w; try discriminate.
  destruct (block_sound _ _ _ parse_statement_sound _ _ _ _ _ H) as (a & l' & -> & -> & D & Hs).
  exists a. auto.
Qed.

Section Body.
  Variable C : list tk -> pres cls.
  Variable n : nat.
  (** The rounds of the loop by what the tokens begin with. *)
  Inductive round : list tk -> Prop :=
  | rd_stop : forall ts, head_is body_stop ts = true -> round ts
  | rd_equation : forall i initial r, g_flag WInitial i initial -> round (i ++ KWord WEquation :: r)
  | rd_initial_algorithm : forall r, round (KWord WInitial :: KWord WAlgorithm :: r)
  | rd_algorithm : forall r, round (KWord WAlgorithm :: r)
  | rd_visible : forall (public : bool) r, round (KWord (if public then WPublic else WProtected) :: r)
  | rd_inner : forall ts, head_is inner_start ts = true -> round ts
  | rd_element : forall ts, head_is body_stop ts = false -> head_is inner_start ts = false ->
      (head_is element_stop ts = true -> exists r, ts = KWord WInitial :: r) ->
      head_is (fun t => match t with KWord (WEquation | WAlgorithm | WPublic | WProtected) => true | _ => false end) ts = false ->
      (forall t r, ts = KWord WInitial :: t :: r -> t <> KWord WEquation /\ t <> KWord WAlgorithm) ->
      round ts.
  Lemma rounds_all : forall ts, round ts.
  Proof.
    intros ts. destruct ts as [|t ts]; [apply rd_element; try reflexivity; discriminate|].
    destruct t; try (apply rd_element; try reflexivity; discriminate); [now apply rd_stop|].
    destruct w; try (apply rd_element; try reflexivity; discriminate); try (now apply rd_stop);
      try (now apply rd_inner).
    - assert (W : (forall t r, KWord WInitial :: ts = KWord WInitial :: t :: r -> t <> KWord WEquation /\ t <> KWord WAlgorithm) ->
        round (KWord WInitial :: ts)).
      { intros N. apply rd_element; auto. eauto. }
      destruct ts as [|t ts]; [apply W; discriminate|].
      destruct t; try (apply W; intros t' r' Q; injection Q as <- <-; split; discriminate).
      destruct w; try (apply W; intros t' r' Q; injection Q as <- <-; split; discriminate).
      + apply (rd_equation [KWord WInitial] true). constructor.
      + apply rd_initial_algorithm.
    - apply (rd_equation [] false). constructor.
    - apply rd_algorithm.
    - apply (rd_visible true).
    - apply (rd_visible false).
  Qed.
  Lemma body_stops : forall m c ts, head_is body_stop ts = true -> class_body C n (S m) c ts = ret c ts.
  Proof. intros m c ts H. cbn [class_body]. now rewrite H. Qed.
  Lemma body_equation : forall m c i initial r, g_flag WInitial i initial ->
    class_body C n (S m) c (i ++ KWord WEquation :: r) =
    ptry (equation_section n (i ++ KWord WEquation :: r)) (fun s r => class_body C n m (add_eq c s) r).
  Proof. intros m c i initial r D. destruct D; reflexivity. Qed.
  Lemma body_initial_algorithm : forall m c r, class_body C n (S m) c (KWord WInitial :: KWord WAlgorithm :: r) = Ok None.
  Proof. reflexivity. Qed.
  Lemma body_algorithm : forall m c r, class_body C n (S m) c (KWord WAlgorithm :: r) =
    ptry (algorithm_section n (KWord WAlgorithm :: r)) (fun s r => class_body C n m (add_alg c s) r).
  Proof. reflexivity. Qed.
  Lemma body_visible : forall m c (public : bool) r,
    class_body C n (S m) c (KWord (if public then WPublic else WProtected) :: r) =
    ptry (element_list public n r) (fun l r1 => class_body C n m (add_members c false l) r1).
  Proof. intros m c [|] r; reflexivity. Qed.
  Lemma body_inner : forall m c ts, head_is inner_start ts = true ->
    class_body C n (S m) c ts = ptry (C ts) (fun x r => class_body C n m (add_inner c x) r).
  Proof.
    intros m c ts H. destruct ts as [|t ts]; [discriminate|]. destruct t; try discriminate.
    destruct w; try discriminate; reflexivity.
  Qed.
  Lemma body_element : forall m c ts, head_is body_stop ts = false -> head_is inner_start ts = false ->
    head_is (fun t => match t with KWord (WEquation | WAlgorithm | WPublic | WProtected) => true | _ => false end) ts = false ->
    (forall t r, ts = KWord WInitial :: t :: r -> t <> KWord WEquation /\ t <> KWord WAlgorithm) ->
    class_body C n (S m) c ts =
    if c_first c then ptry (element_list true n ts) (fun l r => class_body C n m (add_members c true l) r)
    else class_body C n m c ts.
  Proof.
    intros m c ts H1 H2 H3 H4. destruct ts as [|t ts]; [reflexivity|].
    destruct t; try discriminate; try reflexivity. destruct w; try discriminate; try reflexivity.
    destruct ts as [|t ts]; [reflexivity|]. destruct t; try reflexivity. destruct w; try reflexivity;
      exfalso; destruct (H4 _ _ eq_refl); congruence.
  Qed.

  Variable G : list tk -> cls -> Prop.
  Hypothesis SC : sound C G.
  Hypothesis TC : forall ts x, G ts x -> ts <> [].
  Definition place_ok (p : place) (v : bool) (c : content) (ts : list tk) : Prop :=
    match p with
    | First b => c_first c = true /\ v = true /\ (b = true -> head_is element_stop ts = true)
    | Listed b => c_first c = false /\ (b = true -> head_is element_stop ts = true)
    | AfterEquations => head_is equation_stop ts = true
    | AfterAlgorithm => head_is algorithm_stop ts = true
    end.
  Lemma components_body : forall p v, component_after false p p -> forall u l, g_block (g_component false true v) u l ->
    forall w ms es als cs q, g_body false true G p v w ms es als cs q ->
    g_body false true G p v (u ++ w) (l ++ ms) es als cs q.
  Proof.
    intros p v Cp u l D. induction D as [|a x b l D Ds IH]; intros w ms es als cs q B; auto.
    rewrite <- app_assoc. cbn [app]. eapply gbo_component; eauto.
  Qed.
  Lemma first_body : forall b v u l, g_block (g_component false true v) u l -> l <> [] ->
    forall w ms es als cs q, g_body false true G (First true) v w ms es als cs q ->
    g_body false true G (First b) v (u ++ w) (l ++ ms) es als cs q.
  Proof.
    intros b v u l D N w ms es als cs q B. destruct D as [|a x b' l D Ds]; [congruence|].
    rewrite <- app_assoc. cbn [app]. eapply gbo_component; eauto; [constructor|].
    apply components_body; auto. constructor.
  Qed.
  Lemma s_body : forall m c ts p v c' r, place_ok p v c ts -> class_body C n m c ts = ret c' r ->
    exists u ms es als cs q, ts = u ++ r /\ c_members c' = c_members c ++ ms /\ c_eqs c' = c_eqs c ++ es /\
    c_algs c' = c_algs c ++ als /\ c_inner c' = c_inner c ++ cs /\ g_body false true G p v u ms es als cs q /\
    head_is body_stop r = true /\ (component_last q -> head_is element_stop r = true).
  Proof.
    induction m; intros c ts p v c' r Pl H; [discriminate|].
    destruct (rounds_all ts) as [ts S|i initial r0 Di|r0|r0|public r0|ts S|ts S1 S2 S3 S4 S5].
    - rewrite (body_stops _ _ _ S) in H. ptac.
      exists [], [], [], [], [], p. rewrite !app_nil_r. repeat (split; auto); [constructor|].
      intros [->| ->]; cbn in Pl; apply Pl; reflexivity.
    - rewrite (body_equation _ _ _ _ _ Di) in H. apply ptry_inv in H. destruct H as (x & r1 & H0 & H).
      destruct (equation_section_sound _ _ _ _ H0) as (i' & a & initial' & l & Eq & -> & Di' & D & Hs).
      destruct (IHm _ _ AfterEquations v _ _ Hs H) as (u & ms & es & als & cs & q & -> & Em & Ee & Ea & Ei & B & Hr).
      exists (i' ++ KWord WEquation :: a ++ u), ms, ((initial', l) :: es), als, cs, q.
      rewrite Eq. split; [lists|]. cbn in Em, Ee, Ea, Ei. rewrite <- app_assoc in Ee.
      repeat (split; auto). apply gbo_equation; auto. right.
      destruct initial' eqn:Ei'; auto. right. intros ->. cbn in Pl. inversion Di'. subst i'. cbn in Eq.
      rewrite Eq in Pl. discriminate.
    - discriminate.
    - rewrite body_algorithm in H. apply ptry_inv in H. destruct H as (x & r1 & H0 & H).
      destruct (algorithm_section_sound _ _ _ _ H0) as (a & Eq & D & Hs).
      destruct (IHm _ _ AfterAlgorithm v _ _ Hs H) as (u & ms & es & als & cs & q & -> & Em & Ee & Ea & Ei & B & Hr).
      exists (KWord WAlgorithm :: a ++ u), ms, es, (x :: als), cs, q.
      rewrite Eq. split; [lists|]. cbn in Em, Ee, Ea, Ei. rewrite <- app_assoc in Ea.
      repeat (split; auto). apply (gbo_algorithm _ _ _ _ _ [] false); auto. constructor.
    - rewrite body_visible in H. apply ptry_inv in H. destruct H as (x & r1 & H0 & H).
      destruct (block_sound _ _ _ (element_sound public) _ _ _ _ _ H0) as (a & l' & -> & -> & D & Hs).
      assert (Pl' : place_ok (Listed true) public (add_members c false l') r1) by (split; auto).
      destruct (IHm _ _ _ _ _ _ Pl' H) as (u & ms & es & als & cs & q & -> & Em & Ee & Ea & Ei & B & Hr).
      exists (KWord (if public then WPublic else WProtected) :: a ++ u), (l' ++ ms), es, als, cs, q.
      split; [lists|]. cbn in Em, Ee, Ea, Ei. rewrite <- app_assoc in Em. repeat (split; auto).
      destruct public; [apply gbo_public|apply gbo_protected]; apply components_body; auto; constructor.
    - rewrite (body_inner _ _ _ S) in H. apply ptry_inv in H. destruct H as (x & r1 & H0 & H).
      destruct (SC _ _ _ H0) as (a & -> & D).
      assert (exists p', class_after p p' /\ place_ok p' v (add_inner c x) r1) as (p' & Cp & Pl').
      { destruct p as [b|b| |]; cbn in Pl.
        - exists (First false). split; [constructor|]. cbn. intuition discriminate.
        - exists (Listed false). split; [constructor|]. cbn. intuition discriminate.
        - destruct (a ++ r1) as [|t ?]; [discriminate|]. destruct t; try discriminate. destruct w; discriminate.
        - destruct (a ++ r1) as [|t ?]; [discriminate|]. destruct t; try discriminate. destruct w; discriminate. }
      destruct (IHm _ _ _ _ _ _ Pl' H) as (u & ms & es & als & cs & q & -> & Em & Ee & Ea & Ei & B & Hr).
      exists (a ++ u), ms, es, als, (x :: cs), q.
      split; [lists|]. cbn in Em, Ee, Ea, Ei. rewrite <- app_assoc in Ei. repeat (split; auto).
      eapply gbo_class; eauto. right. destruct a as [|t a].
      + now apply TC in D.
      + cbn in S. destruct t; try discriminate. exists w, a. split; auto. destruct w; try discriminate; cbn; tauto.
    - rewrite (body_element _ _ _ S1 S2 S4 S5) in H. destruct (c_first c) eqn:F.
      + apply ptry_inv in H. destruct H as (x & r1 & H0 & H).
        destruct p as [b|b| |]; cbn in Pl.
        * destruct Pl as (_ & -> & Pl).
          destruct (block_sound _ _ _ (element_sound true) _ _ _ _ _ H0) as (a & l' & -> & -> & D & Hs).
          destruct l' as [|y l'].
          { inversion D. subst a. cbn [app] in *.
            assert (Pl' : place_ok (First b) true (add_members c true []) r1) by (repeat split; auto).
            destruct (IHm _ _ _ _ _ _ Pl' H) as (u & ms & es & als & cs & q & -> & Em & Ee & Ea & Ei & B & Hr).
            cbn in Em, Ee, Ea, Ei. rewrite app_nil_r in Em. eauto 15. }
          assert (Pl' : place_ok (First true) true (add_members c true (y :: l')) r1) by (repeat split; auto).
          destruct (IHm _ _ _ _ _ _ Pl' H) as (u & ms & es & als & cs & q & -> & Em & Ee & Ea & Ei & B & Hr).
          exists (a ++ u), ((y :: l') ++ ms), es, als, cs, q.
          split; [lists|]. cbn [add_members c_members c_eqs c_algs c_inner app] in Em, Ee, Ea, Ei.
          rewrite <- app_assoc in Em. repeat (split; auto). apply first_body; auto. discriminate.
        * destruct Pl as [Pl _]. congruence.
        * assert (exists r2, ts = KWord WInitial :: r2) as (r2 & ->).
          { destruct ts as [|t ts]; [discriminate|]. destruct t; try discriminate. destruct w; try discriminate. eauto. }
          unfold element_list in H0. destruct n as [|n']; [discriminate|]. cbn in H0. ptac.
          assert (Pl' : place_ok AfterEquations v (add_members c true []) (KWord WInitial :: r2)) by reflexivity.
          destruct (IHm _ _ _ _ _ _ Pl' H) as (u & ms & es & als & cs & q & Eq & Em & Ee & Ea & Ei & B & Hr).
          cbn in Em, Ee, Ea, Ei. rewrite app_nil_r in Em. exists u, ms, es, als, cs, q. auto 10.
        * exfalso. destruct ts as [|t ts]; [discriminate|]. destruct t; try discriminate; [destruct w; discriminate|].
          unfold element_list in H0. destruct n as [|n']; [discriminate|]. cbn in H0. discriminate.
      + destruct (IHm _ _ _ _ _ _ Pl H) as (u & ms & es & als & cs & q & Eq). eauto 10.
  Qed.
End Body.

Lemma kind_tokens : forall a k, g_kind a k -> a <> [].
Proof. intros a k D. destruct D; try discriminate; destruct a; discriminate. Qed.
Lemma class_tokens : forall fl rx d ts x, g_class_depth fl rx d ts x -> ts <> [].
Proof.
  intros fl rx d ts x D. destruct d; [destruct D|]. cbn [g_class_depth] in D.
  destruct D as [a ? ? ? ? ? ? ? ? ? ? ? ? ? Dk|a ? ? ? ? ? ? Dk]; destruct a; try discriminate.
Qed.
Lemma class_sound : forall n, sound (class_fuel n) (g_class_depth false true n).
Proof.
  induction n; [intros ts x r H; discriminate|]. cbn [g_class_depth]. intros ts x r H. cbn [class_fuel] in H.
  unfold class_definition in H. apply ptry_inv in H. destruct H as (k & r0 & Hk & H).
  destruct (kind_sound _ _ _ Hk) as (a & -> & Dk). next as r1. rename s into name.
  assert (W : (forall r', r1 <> KAssign :: r') -> ptry (class_body (class_fuel n) (S n) (S n) (mkContent [] [] [] [] true) (skip_string r1))
    (fun c r2 => ptry (external_clause r2) (fun e r3 => ptry (class_annotation r3) (fun a r4 =>
      match r4 with
      | KEnd :: KIdent s' :: r5 =>
          if text_eqb name s' then
            match r5 with
            | KSemi :: r6 => ret (Cls k name (c_members c) (c_eqs c) (c_algs c) (c_inner c) e a) r6
            | _ => Ok None
            end
          else Ok None
      | _ => Ok None
      end))) = ret x r ->
    exists u, a ++ KIdent name :: r1 = u ++ r /\ g_class false true (g_class_depth false true n) u x).
  { clear H. intros _ H. apply ptry_inv in H. destruct H as (c & r2 & Hb & H).
    apply ptry_inv in H. destruct H as (e & r3 & He & H).
    apply ptry_inv in H. destruct H as (an & r4 & Ha & H).
    destruct (comment_sound r1) as (cm & Eq & Dc). set (r0 := skip_string r1) in *. clearbody r0. subst r1.
    assert (Pl : place_ok (First false) true (mkContent [] [] [] [] true) r0) by (repeat split; discriminate).
    destruct (s_body _ _ _ IHn (class_tokens _ _ _) _ _ _ _ _ _ _ Pl Hb)
      as (u & ms & es & als & cs & q & -> & Em & Ee & Ea & Ei & B & _ & Hr).
    assert (Nl : component_last q -> e <> None \/ an = None).
    { intros Q. specialize (Hr Q). unfold external_clause in He.
      destruct r2 as [|t r2]; [discriminate|].
      destruct t; try discriminate; [ptac; right; cbn in Ha; ptac; reflexivity|].
      destruct w; try discriminate; try (ptac; right; cbn in Ha; ptac; reflexivity).
      left. intros ->. clear - He. destruct (match r2 with KStr s :: r1 => (Some s, r1) | _ => (None, r2) end) as [lang r1].
      apply ptry_inv in He. destruct He as (? & ? & _ & He). apply ptry_inv in He. destruct He as (? & r5 & _ & He).
      destruct r5 as [|t r5]; [discriminate|]. destruct t; discriminate. }
    destruct (external_sound _ _ _ He) as (d & -> & Dd).
    destruct (class_annotation_sound _ _ _ Ha) as (f & -> & Df).
    destruct r4 as [|t r4]; [discriminate|]. destruct t; try discriminate.
    destruct r4 as [|t r4]; [discriminate|]. destruct t; try discriminate.
    destruct (text_eqb name s) eqn:T; [|discriminate]. apply text_eqb_sound in T. subst s.
    destruct r4 as [|t r4]; [discriminate|]. destruct t; try discriminate. ptac.
    cbn in Em, Ee, Ea, Ei. rewrite Em, Ee, Ea, Ei.
    exists (a ++ KIdent name :: cm ++ u ++ d ++ f ++ [KEnd; KIdent name; KSemi]). split; [lists|].
    eapply gcl_long; eauto. right. destruct an as [an|]; auto. right. destruct e as [e|]; [left; discriminate|].
    right. intros Q. destruct (Nl Q); congruence. }
  destruct r1 as [|t r1]; [apply W; auto; discriminate|].
  destruct t; try (apply W; [discriminate|exact H]). clear W.
  destruct (derivative_sound _ _ _ _ _ H) as (p & u & b & f & l & c & -> & -> & D & Dc & -> & ->).
  exists (a ++ KIdent name :: KAssign :: KDer :: KLPar :: b ++ KRPar :: c ++ [KSemi]). split; [lists|].
  eapply gcl_der; eauto.
Qed.
Lemma parse_class_sound : sound parse_class (g_cls false true).
Proof.
  intros ts x r H. destruct (class_sound _ _ _ _ H) as (u & -> & D). exists u. split; auto. eexists; exact D.
Qed.
Lemma root_sound : forall n acc ts l r, root_fuel n acc ts = ret l r ->
  exists u l', ts = u ++ r /\ l = acc ++ l' /\ g_root false true u l' /\
  (r = [] \/ exists r', r = KOther TokEOF :: r').
Proof.
  induction n; intros acc ts l r H; [discriminate|]. cbn [root_fuel] in H.
  assert (W : ptry (parse_class ts) (fun c r => root_fuel n (acc ++ [c]) r) = ret l r ->
    exists u l', ts = u ++ r /\ l = acc ++ l' /\ g_root false true u l' /\
    (r = [] \/ exists r', r = KOther TokEOF :: r')).
  { clear H. intros H. apply ptry_inv in H. destruct H as (c & r0 & H0 & H).
    destruct (parse_class_sound _ _ _ H0) as (u & -> & D).
    destruct (IHn _ _ _ _ H) as (u' & l' & -> & -> & D' & Hr).
    exists (u ++ u'), (c :: l'). split; [lists|]. split; [lists|]. split; auto. now constructor. }
  assert (E : ts = [] \/ (exists r', ts = KOther TokEOF :: r') -> ret acc ts = ret l r ->
    exists u l', ts = u ++ r /\ l = acc ++ l' /\ g_root false true u l' /\
    (r = [] \/ exists r', r = KOther TokEOF :: r')).
  { intros Q Q'. ptac. exists [], []. rewrite app_nil_r. repeat (split; auto). constructor. }
  destruct ts as [|t ts]; [auto|]. destruct t; auto. destruct t; auto. apply E; eauto.
Qed.
