(** C72, C73, C74: the parser of classes and files. *)
From Coq Require Import ZArith QArith List Bool String Lia.
From Verif Require Import Result LexerModel ParserModel ParserSpec ParserProofs ParserCompleteProofs
  BlockParserModel BlockParserSpec BlockParserProofs PropertiesParser PropertiesBlockParser
  ClassParserModel ClassParserSpec ClassParserProofs ClassParserCompleteProofs.
Import ListNotations.
Local Open Scope string_scope.
Local Open Scope nat_scope.
Local Open Scope list_scope.

(** ** C72: the classes of the language are read with their trees *)

(** Full statement: the parser reads each class of the language up to its end and gives
    its tree. Proved for [supported_class]; what it leaves out is at the head of
    ClassParserSpec.v, and the theorems [C72_..._refuted] show that it is rejected. *)
Theorem C72_reads_partial : forall used c rest,
  supported_class used c -> parse_class (used ++ rest) = Ok (Some (c, rest)).
Proof. intros used c rest D. now apply parse_class_complete. Qed.
Print Assumptions C72_reads_partial.

Definition id (s : string) : tk := KIdent (codes s).
Lemma typed : forall fl rx v b va s t x f m, g_variability b va -> In (codes s, t) predefined ->
  g_value fl rx f m -> g_component fl rx v (b ++ KIdent (codes s) :: KIdent (codes x) :: f)
    (mkMember (codes x) t [] va NoCausality v m).
Proof.
  intros fl rx v b va s t x f m Db Dt Df.
  pose proof (gcp fl rx v [] false b va [] NoCausality ([] ++ [KIdent (codes s)]) t [] [] (codes x) f m [] [] None
    (gfl_no _) Db gca_none (gna_predefined [] false (codes s) t gdo_no Dt) (gds_none _ _) Df gco_none (gan_none _ _)) as H.
  cbn [app] in H. now rewrite !app_nil_r in H.
Qed.
Lemma plain : forall fl rx v s t x, In (codes s, t) predefined ->
  g_component fl rx v [KIdent (codes s); KIdent (codes x)] (mkMember (codes x) t [] NoVariability NoCausality v None).
Proof. intros. apply (typed fl rx v [] NoVariability s t x [] None); auto; constructor. Qed.

(** A model with a comment, a parameter with its value, an array with a modification, a
    class inside, a protected component, sections of both kinds and an annotation. *)
Definition big : string :=
  "model M ""comment"" parameter Integer n = m; Real[n, :] x(each start = a) = b; " ++
  "record R Real z; end R; protected Boolean y; initial equation x = a; " ++
  "equation x = b; x = c; algorithm y := c; annotation(d = e, f); end M;".
Definition big_tree : cls :=
  Cls CModel (codes "M")
    [mkMember (codes "n") VInteger [] IsParameter NoCausality true (Some (Modif None (Some (name "m"))));
     mkMember (codes "x") VReal [DExpr (name "n"); DSize (-1)] NoVariability NoCausality true
       (Some (Modif (Some [Elem true false (codes "start") (Some (Modif None (Some (name "a"))))]) (Some (name "b"))));
     mkMember (codes "y") VBoolean [] NoVariability NoCausality false None]
    [(true, [QEq (name "x") (name "a")]); (false, [QEq (name "x") (name "b"); QEq (name "x") (name "c")])]
    [[ZAssign [name "y"] (name "c")]]
    [Cls CRecord (codes "R") [mkMember (codes "z") VReal [] NoVariability NoCausality true None] [] [] [] None None]
    None (Some [Elem false false (codes "d") (Some (Modif None (Some (name "e")))); Elem false false (codes "f") None]).
Lemma valued : forall fl rx s, g_modif fl rx [KAssign; KIdent s] (Modif None (Some (XRef false [(s, [])]))).
Proof. intros. exists 1. apply gmo_eq, named_expr. Qed.
Lemma equal : forall fl rx a b, g_eqn fl rx ([KIdent a] ++ KAssign :: [KIdent b] ++ [])
  (QEq (XRef false [(a, [])]) (XRef false [(b, [])])).
Proof. intros. exists 1. apply gq_eq; [apply named_simple|apply named_expr|constructor]. Qed.
Lemma assigned : forall fl rx a b, g_stmt fl rx ([KIdent a] ++ KAssignOp :: [KIdent b])
  (ZAssign [XRef false [(a, [])]] (XRef false [(b, [])])).
Proof. intros. exists 1. apply gz_assign; [apply named_reference|apply named_expr]. Qed.
Lemma plain_argument : forall M s, g_element false M ([] ++ [] ++ KIdent s :: []) (Elem false false s None).
Proof. intros. apply gem_plain; try constructor. reflexivity. Qed.

Example C72_reads_example : supported_class (tokens_of big) big_tree.
Proof.
  exists 2.
  change (tokens_of big) with
    ([KWord WModel] ++ id "M" :: [KStr (codes "comment")] ++
      (([KWord WParameter] ++ id "Integer" :: id "n" :: [KAssign; id "m"]) ++ KSemi ::
       ([] ++ [] ++ [] ++ ([] ++ [id "Real"]) ++ (KLSq :: ([id "n"] ++ KComma :: [KColon]) ++ [KRSq]) ++ id "x" ::
          ((KLPar :: ([KWord WEach] ++ [] ++ id "start" :: [KAssign; id "a"] ++ []) ++ [KRPar]) ++ KAssign :: [id "b"]) ++ [] ++ []) ++ KSemi ::
       (([] ++ [KWord WRecord]) ++ id "R" :: [] ++ ([id "Real"; id "z"] ++ KSemi :: []) ++ [] ++ [] ++ [KEnd; id "R"; KSemi]) ++
       KWord WProtected :: [id "Boolean"; id "y"] ++ KSemi ::
       [KWord WInitial] ++ KWord WEquation :: (([id "x"] ++ KAssign :: [id "a"] ++ []) ++ KSemi :: []) ++
       [] ++ KWord WEquation :: (([id "x"] ++ KAssign :: [id "b"] ++ []) ++ KSemi ::
         ([id "x"] ++ KAssign :: [id "c"] ++ []) ++ KSemi :: []) ++
       [] ++ KWord WAlgorithm :: (([id "y"] ++ KAssignOp :: [id "c"]) ++ KSemi :: []) ++ []) ++
      [] ++
      ((KWord WAnnotation :: (KLPar :: (([] ++ [] ++ id "d" :: [KAssign; id "e"] ++ []) ++ KComma ::
          ([] ++ [] ++ id "f" :: [])) ++ [KRPar])) ++ [KSemi]) ++
      [KEnd; id "M"; KSemi]).
  cbn [g_class_depth].
  eapply gcl_long; [apply gki_model|apply gco_some| |apply gxt_none| |].
  - eapply gbo_component; [apply caf_first| |].
    { apply typed; [apply gva_parameter|cbn; auto|]. apply gvl_some; [apply valued|right; discriminate]. }
    eapply gbo_component; [apply caf_first| |].
    { eapply gcp; [apply gfl_no|apply gva_none|apply gca_none| | | |apply gco_none|apply gan_none].
      - apply (gna_predefined [] false (codes "Real") VReal); [constructor|cbn; auto].
      - apply gds_some. apply sep_more; [|apply sep_one, gdi_all].
        apply gdi_expr; [apply named_expr|left; discriminate].
      - apply gvl_some; [|right; discriminate]. exists 2. apply gmo_class_eq; [|apply named_expr].
        apply gcm_some, sep_one. apply gem_modif; [constructor|constructor| |constructor|now left].
        apply gmo_eq, named_expr. }
    eapply gbo_class; [apply claf_first| | |].
    { apply (gcl_long _ _ _ ([] ++ [KWord WRecord]) CRecord (codes "R") [] ([id "Real"; id "z"] ++ KSemi :: [])
        [mkMember (codes "z") VReal [] NoVariability NoCausality true None] [] [] [] (First true) [] None [] None);
        [apply (gki_record [] false); constructor|constructor| |constructor|constructor|auto].
      eapply gbo_component; [apply caf_first| |apply gbo_end]. apply plain. cbn. auto. }
    { right. do 2 eexists. split; [reflexivity|]. cbn. auto 10. }
    apply gbo_protected. eapply gbo_component; [apply caf_listed|apply plain; cbn; auto|].
    eapply gbo_equation; [apply gfl_yes|right; right; discriminate| |].
    { apply gb_cons; [apply equal|apply gb_nil]. }
    eapply gbo_equation; [apply gfl_no|now right; left| |].
    { apply gb_cons; [apply equal|]. apply gb_cons; [apply equal|apply gb_nil]. }
    eapply gbo_algorithm; [apply gfl_no|now right| |apply gbo_end].
    apply gb_cons; [apply assigned|apply gb_nil].
  - apply gcn_some, gan_some, gcm_some. apply sep_more; [|apply sep_one, plain_argument].
    apply gem_modif; [constructor|constructor|apply valued|constructor|now left].
  - right. right. right. intros [Ab|Ab]; discriminate.
Qed.

Theorem C72_one_tree : forall used c c', supported_class used c -> supported_class used c' -> c = c'.
Proof.
  intros used c c' H H'.
  pose proof (C72_reads_partial used c [] H) as Q. rewrite (C72_reads_partial used c' [] H') in Q. now injection Q.
Qed.
Print Assumptions C72_one_tree.
Example C72_one_tree_example : supported_class (tokens_of big) big_tree.
Proof. exact C72_reads_example. Qed.

(** Whole files, up to the end of the tokens or the token of the end of the file. *)
Theorem C72_file_partial : forall used l, supported_file used l ->
  parse_root used = Ok (Some (l, [])) /\
  parse_root (used ++ [KOther TokEOF]) = Ok (Some (l, [KOther TokEOF])).
Proof.
  intros used l D. split.
  - pose proof (root_complete _ _ D (S (List.length used)) [] [] (or_introl eq_refl) (Nat.lt_succ_diag_r _)) as Q.
    rewrite app_nil_r in Q. exact Q.
  - unfold parse_root. apply (root_complete _ _ D); [right; now eexists|]. rewrite app_length. cbn. lia.
Qed.
Print Assumptions C72_file_partial.
Example C72_file_example : supported_file (tokens_of big ++ tokens_of big ++ []) [big_tree; big_tree].
Proof. apply gro_cons; [exact C72_reads_example|]. apply gro_cons; [exact C72_reads_example|constructor]. Qed.

(** Every class in which an initial algorithm comes first is rejected. *)
Lemma lone : forall b ms es als cs q a k, g_kind a k ->
  g_body true false (g_class_depth true false 1) (First false) true b ms es als cs q ->
  modelica_class (a ++ KIdent (codes "M") :: [] ++ b ++ [] ++ [] ++ [KEnd; KIdent (codes "M"); KSemi])
    (Cls k (codes "M") ms es als cs None None).
Proof. intros. exists 2. eapply gcl_long; eauto; constructor. Qed.
Theorem C72_initial_algorithm_refuted :
  (forall a k s rest, g_kind a k ->
   parse_class (a ++ KIdent s :: KWord WInitial :: KWord WAlgorithm :: rest) = Ok None)
  /\ exists used c, used = tokens_of "model M initial algorithm x := y; end M;"
     /\ modelica_class used c /\ parse_class used = Ok None.
Proof.
  split.
  - intros a k s rest D. unfold parse_class. cbn [class_fuel]. unfold class_definition.
    rewrite (kind_complete _ _ _ _ D), ptry_ret. reflexivity.
  - do 2 eexists. split; [reflexivity|]. split; [|vm_compute; reflexivity].
    change (tokens_of "model M initial algorithm x := y; end M;") with
      ([KWord WModel] ++ id "M" :: [] ++ ([KWord WInitial] ++ KWord WAlgorithm ::
        (([id "x"] ++ KAssignOp :: [id "y"]) ++ KSemi :: []) ++ []) ++ [] ++ [] ++ [KEnd; id "M"; KSemi]).
    eapply lone; [apply gki_model|]. eapply gbo_algorithm; [apply gfl_yes|now left| |apply gbo_end].
    apply gb_cons; [apply assigned|apply gb_nil].
Qed.
Print Assumptions C72_initial_algorithm_refuted.

(** An initial equation section after an algorithm is rejected, and so is the annotation
    of a class that comes right after a component. *)
Theorem C72_order_refuted :
  (exists used c, used = tokens_of "model M algorithm x := y; initial equation x = y; end M;"
     /\ modelica_class used c /\ parse_class used = Ok None)
  /\ (exists used c, used = tokens_of "model M Real x; annotation(d = e); end M;"
     /\ modelica_class used c /\ parse_class used = Ok None).
Proof.
  split; do 2 eexists; (split; [reflexivity|]); (split; [|vm_compute; reflexivity]).
  - change (tokens_of "model M algorithm x := y; initial equation x = y; end M;") with
      ([KWord WModel] ++ id "M" :: [] ++ ([] ++ KWord WAlgorithm ::
        (([id "x"] ++ KAssignOp :: [id "y"]) ++ KSemi :: []) ++
        [KWord WInitial] ++ KWord WEquation :: (([id "x"] ++ KAssign :: [id "y"] ++ []) ++ KSemi :: []) ++ []) ++
        [] ++ [] ++ [KEnd; id "M"; KSemi]).
    eapply lone; [apply gki_model|]. eapply gbo_algorithm; [apply gfl_no|now left| |].
    { apply gb_cons; [apply assigned|apply gb_nil]. }
    eapply gbo_equation; [apply gfl_yes|now left| |apply gbo_end].
    apply gb_cons; [apply equal|apply gb_nil].
  - change (tokens_of "model M Real x; annotation(d = e); end M;") with
      ([KWord WModel] ++ id "M" :: [] ++ ([id "Real"; id "x"] ++ KSemi :: []) ++ [] ++
        ((KWord WAnnotation :: (KLPar :: ([] ++ [] ++ id "d" :: [KAssign; id "e"] ++ []) ++ [KRPar])) ++ [KSemi]) ++
        [KEnd; id "M"; KSemi]).
    exists 2. eapply gcl_long; [apply gki_model|constructor| |constructor| |now left].
    + eapply gbo_component; [apply caf_first|apply plain; cbn; auto|apply gbo_end].
    + apply gcn_some, gan_some, gcm_some, sep_one.
      apply gem_modif; [constructor|constructor|apply valued|constructor|now left].
Qed.
Print Assumptions C72_order_refuted.

(** An array dimension that begins with an integer and goes on is rejected, and so are an
    annotation without arguments and a pure function inside a class. *)
Theorem C72_parts_refuted :
  (exists used c, used = tokens_of "model M Real[2 + n] x; end M;"
     /\ modelica_class used c /\ parse_class used = Ok None)
  /\ (exists used c, used = tokens_of "model M annotation(); end M;"
     /\ modelica_class used c /\ parse_class used = Ok None)
  /\ (exists used c, used = tokens_of "package M pure function f end f; end M;"
     /\ modelica_class used c /\ parse_class used = Ok None).
Proof.
  split; [|split]; do 2 eexists; (split; [reflexivity|]); (split; [|vm_compute; reflexivity]).
  - change (tokens_of "model M Real[2 + n] x; end M;") with
      ([KWord WModel] ++ id "M" :: [] ++
        (([] ++ [] ++ [] ++ ([] ++ [id "Real"]) ++ (KLSq :: [KInt 2; KPlus; id "n"] ++ [KRSq]) ++ id "x" :: [] ++ [] ++ []) ++ KSemi :: []) ++
        [] ++ [] ++ [KEnd; id "M"; KSemi]).
    eapply lone; [apply gki_model|]. eapply gbo_component; [apply caf_first| |apply gbo_end].
    eapply gcp; [apply gfl_no|apply gva_none|apply gca_none| | |apply gvl_none|apply gco_none|apply gan_none].
    + apply (gna_predefined [] false (codes "Real") VReal); [constructor|cbn; auto].
    + apply gds_some, sep_one, gdi_expr; [|right; split; [reflexivity|discriminate]].
      exists 1. apply gex_simple, gsi_one, gle_one, glt_one, glf_one, grl_one.
      change [KInt 2; KPlus; id "n"] with ([KInt 2] ++ KPlus :: [id "n"]).
      eapply gar_op; [apply gar_one, gt_one, gf_one, gpr_int|now left|].
      apply gt_one, gf_one, gpr_ref, gre_local, sep_one, ge_plain.
  - change (tokens_of "model M annotation(); end M;") with
      ([KWord WModel] ++ id "M" :: [] ++ [] ++ [] ++ ((KWord WAnnotation :: [KLPar; KRPar]) ++ [KSemi]) ++
        [KEnd; id "M"; KSemi]).
    exists 2. eapply gcl_long; [apply gki_model|constructor|apply gbo_end|constructor| |now left].
    apply gcn_some, gan_some, gcm_none. reflexivity.
  - change (tokens_of "package M pure function f end f; end M;") with
      ([KWord WPackage] ++ id "M" :: [] ++
        (((KWord WPure :: [] ++ [KWord WFunction]) ++ id "f" :: [] ++ [] ++ [] ++ [] ++ [KEnd; id "f"; KSemi]) ++ []) ++
        [] ++ [] ++ [KEnd; id "M"; KSemi]).
    eapply lone; [apply gki_package|]. eapply gbo_class; [apply claf_first| |now left|apply gbo_end].
    eapply gcl_long; [eapply gki_pure, gfl_no|constructor|apply gbo_end|constructor|constructor|now left].
Qed.
Print Assumptions C72_parts_refuted.

(** ** C73: the parser of classes ends *)

(** Full statement: it ends with a tree or a diagnostic, on every sequence of tokens.
    Proved: it ends on texts without [public] and [protected] in which every [initial]
    comes before [equation] or [algorithm]. The rest is false, see the theorems below. *)
Theorem C73_ends_partial : forall ts,
  (forall u r w, ts = u ++ KWord w :: r -> w <> WPublic /\ w <> WProtected) ->
  (forall u r, ts = u ++ KWord WInitial :: r ->
   exists r', r = KWord WEquation :: r' \/ r = KWord WAlgorithm :: r') ->
  parse_class ts <> NoFuel /\ parse_root ts <> NoFuel.
Proof.
  intros ts H1 H2. assert (K : calm ts) by (split; auto).
  split; [apply class_fine|apply root_fine]; auto; lia.
Qed.
Print Assumptions C73_ends_partial.
Example C73_ends_example :
  forall ts, ts = tokens_of "model M Real x; initial equation x = x; equation x = 3" ->
  (forall u r w, ts = u ++ KWord w :: r -> w <> WPublic /\ w <> WProtected) /\
  (forall u r, ts = u ++ KWord WInitial :: r ->
   exists r', r = KWord WEquation :: r' \/ r = KWord WAlgorithm :: r').
Proof.
  intros ts T. vm_compute in T. split.
  - intros u r w E. assert (H : In (KWord w) ts) by (rewrite E; apply in_elt).
    rewrite T in H. cbn in H. repeat (destruct H as [H|H]; [try discriminate; injection H as <-; split; discriminate|]). destruct H.
  - intros u r E. subst ts.
    repeat (destruct u as [|? u]; cbn [app] in E;
      [try discriminate E; injection E as <-; eauto|injection E; clear E; intros E ?]; try discriminate E).
    destruct u; discriminate E.
Qed.

(** The tokens with which a section, a class or the end of a class can begin. *)
Definition section_start (t : tk) : Prop :=
  t = KEnd \/ exists w, t = KWord w /\ In w [WPublic; WProtected; WInitial; WEquation; WAlgorithm;
    WClass; WFunction; WModel; WPackage; WRecord; WExternal; WAnnotation].
Lemma stuck : forall C n t r, ~ section_start t -> forall m c, c_first c = false ->
  class_body C n m c (t :: r) = NoFuel.
Proof.
  intros C n t r N. induction m; intros c F; [reflexivity|].
  assert (S : class_body C n (S m) c (t :: r) = class_body C n m c (t :: r)).
  { cbn [class_body].
    destruct t; cbn [head_is body_stop inner_start]; rewrite ?F; try reflexivity; try (exfalso; apply N; now left).
    destruct w; cbn [head_is body_stop inner_start]; rewrite ?F; try reflexivity;
      exfalso; apply N; right; eexists; (split; [reflexivity|]); cbn; auto 20. }
  rewrite S. auto.
Qed.
Lemma stuck_initial : forall C n r, (forall r', r <> KWord WEquation :: r') -> (forall r', r <> KWord WAlgorithm :: r') ->
  forall m c, class_body C n m c (KWord WInitial :: r) = NoFuel.
Proof.
  intros C n r N1 N2. induction m; intros c; [reflexivity|].
  assert (S : class_body C n (S m) c (KWord WInitial :: r) = NoFuel \/
    exists c', class_body C n (S m) c (KWord WInitial :: r) = class_body C n m c' (KWord WInitial :: r)).
  { cbn [class_body head_is body_stop inner_start].
    assert (Q : (if c_first c
       then ptry (element_list true n (KWord WInitial :: r)) (fun l r => class_body C n m (add_members c true l) r)
       else class_body C n m c (KWord WInitial :: r)) = NoFuel \/
      exists c', (if c_first c
       then ptry (element_list true n (KWord WInitial :: r)) (fun l r => class_body C n m (add_members c true l) r)
       else class_body C n m c (KWord WInitial :: r)) = class_body C n m c' (KWord WInitial :: r)).
    { destruct (c_first c); [|right; eexists; reflexivity]. destruct n; [now left|]. right. eexists. reflexivity. }
    destruct r as [|t r']; auto. destruct t; auto. destruct w; auto; [now destruct (N1 r')|now destruct (N2 r')]. }
  destruct S as [S|[c' S]]; rewrite S; auto.
Qed.

(** Wherever [initial] is not followed by [equation] or [algorithm], at the beginning of
    a class, the parser does not end. *)
Theorem C73_initial_refuted : forall n a k s rest, g_kind a k ->
  (forall r, rest <> KWord WEquation :: r) -> (forall r, rest <> KWord WAlgorithm :: r) ->
  class_fuel n (a ++ KIdent s :: KWord WInitial :: rest) = NoFuel.
Proof.
  intros n a k s rest D N1 N2. destruct n; [reflexivity|]. cbn [class_fuel]. unfold class_definition.
  rewrite (kind_complete _ _ _ _ D), ptry_ret. cbn [skip_string]. now rewrite stuck_initial.
Qed.
Print Assumptions C73_initial_refuted.
Example C73_initial_example : g_kind [KWord WModel] CModel /\
  tokens_of "model M initial Real x; end M;" = [KWord WModel] ++ id "M" :: KWord WInitial :: tokens_of "Real x; end M;".
Proof. split; [constructor|vm_compute; reflexivity]. Qed.

(** Where a class comes in a public list of elements and no section, class or end comes
    after it, the parser does not end, and this also happens to classes of the language. *)
Theorem C73_public_refuted :
  (forall n a k s s' t rest, g_kind a k -> ~ section_start t ->
   class_fuel n (a ++ KIdent s :: KWord WPublic :: KWord WModel :: KIdent s' :: KEnd :: KIdent s' :: KSemi :: t :: rest) = NoFuel)
  /\ (exists used c, used = tokens_of "model M public model N end N; Real y; end M;" /\ modelica_class used c /\
      forall n, class_fuel n used = NoFuel).
Proof.
  assert (G : forall n a k s s' t rest, g_kind a k -> ~ section_start t ->
   class_fuel n (a ++ KIdent s :: KWord WPublic :: KWord WModel :: KIdent s' :: KEnd :: KIdent s' :: KSemi :: t :: rest) = NoFuel).
  { intros n a k s s' t rest D N.
    assert (Q : forall n m c, ptry (class_fuel n (KWord WModel :: KIdent s' :: KEnd :: KIdent s' :: KSemi :: t :: rest))
       (fun x r => class_body (class_fuel n) (S n) m (add_inner (add_members c false []) x) r) = NoFuel).
    { intros n0 m c. destruct n0; [reflexivity|]. cbn [class_fuel]. unfold class_definition at 1. cbn [class_kind].
      rewrite ptry_ret. cbn [skip_string class_body head_is body_stop]. rewrite ptry_ret. cbn [external_clause].
      rewrite ptry_ret. cbn [class_annotation]. rewrite ptry_ret.
      assert (R : text_eqb s' s' = true) by (now apply LexerProofs.text_eqb_eq). rewrite R, ptry_ret. now apply stuck. }
    destruct n; [reflexivity|]. cbn [class_fuel]. unfold class_definition.
    rewrite (kind_complete _ _ _ _ D), ptry_ret. cbn [skip_string].
    assert (B : class_body (class_fuel n) (S n) (S n) (mkContent [] [] [] [] true)
      (KWord WPublic :: KWord WModel :: KIdent s' :: KEnd :: KIdent s' :: KSemi :: t :: rest) = NoFuel).
    { destruct n; [reflexivity|]. cbn [class_body head_is body_stop].
      change (element_list true (S (S n)) (KWord WModel :: KIdent s' :: KEnd :: KIdent s' :: KSemi :: t :: rest))
        with (ret (A := list member) [] (KWord WModel :: KIdent s' :: KEnd :: KIdent s' :: KSemi :: t :: rest)).
      rewrite ptry_ret. cbn [head_is body_stop inner_start]. apply Q. }
    rewrite B. reflexivity. }
  split; [exact G|]. do 2 eexists. split; [reflexivity|]. split.
  - change (tokens_of "model M public model N end N; Real y; end M;") with
      ([KWord WModel] ++ id "M" :: [] ++ (KWord WPublic ::
        ([KWord WModel] ++ id "N" :: [] ++ [] ++ [] ++ [] ++ [KEnd; id "N"; KSemi]) ++
        ([id "Real"; id "y"]) ++ KSemi :: []) ++ [] ++ [] ++ [KEnd; id "M"; KSemi]).
    eapply lone; [apply gki_model|]. apply gbo_public. eapply gbo_class; [apply claf_listed| |now left|].
    { eapply gcl_long; [apply gki_model|constructor|apply gbo_end|constructor|constructor|now left]. }
    eapply gbo_component; [now apply caf_class|apply plain; cbn; auto|apply gbo_end].
  - intros n.
    assert (T : tokens_of "model M public model N end N; Real y; end M;" =
      [KWord WModel] ++ id "M" :: KWord WPublic :: KWord WModel :: id "N" :: KEnd :: id "N" :: KSemi :: id "Real" ::
        [id "y"; KSemi; KEnd; id "M"; KSemi]) by (vm_compute; reflexivity).
    rewrite T. unfold id at 1 2 3. apply (G n _ CModel); [constructor|].
    intros [Ab|(w & Ab & _)]; discriminate.
Qed.
Print Assumptions C73_public_refuted.
(** The second part is a case of the first; the end of the file is another. *)
Example C73_public_example : ~ section_start (KOther TokEOF).
Proof. intros [Ab|(w & Ab & _)]; discriminate. Qed.

(** What is read is never nothing. *)
Theorem C73_progress : forall ts c rest,
  parse_class ts = Ok (Some (c, rest)) -> List.length rest < List.length ts.
Proof.
  intros ts c rest H. destruct (class_sound _ _ _ _ H) as (u & -> & D). apply class_tokens in D.
  destruct u; [congruence|]. rewrite app_length. cbn. lia.
Qed.
Print Assumptions C73_progress.
Example C73_progress_example :
  parse_class (tokens_of "record R end R; record") = Ok (Some (Cls CRecord (codes "R") [] [] [] [] None None, [KWord WRecord])).
Proof. vm_compute. reflexivity. Qed.

(** Wrong texts that violate an assertion: every class other than a function that is
    declared with "=", a number in place of the type of the first component, and the
    redeclarations and replaceable elements of modifications. *)
Theorem C73_diagnostic_refuted :
  (forall a k s rest, g_kind a k -> (forall p, k <> CFunction p) -> parse_class (a ++ KIdent s :: KAssign :: rest) = Bad)
  /\ (forall a k s z rest, g_kind a k -> parse_class (a ++ KIdent s :: KInt z :: rest) = Bad)
  /\ (forall a k s x y rest, g_kind a k -> builtin x <> None ->
      parse_class (a ++ KIdent s :: KIdent x :: KIdent y :: KLPar :: KWord WRedeclare :: rest) = Bad /\
      parse_class (a ++ KIdent s :: KIdent x :: KIdent y :: KLPar :: KWord WReplaceable :: rest) = Bad).
Proof.
  split; [|split].
  - intros a k s rest D N. unfold parse_class. cbn [class_fuel]. unfold class_definition.
    rewrite (kind_complete _ _ _ _ D), ptry_ret. destruct k; try reflexivity. now destruct (N pure).
  - intros a k s z rest D. unfold parse_class. cbn [class_fuel]. unfold class_definition.
    rewrite (kind_complete _ _ _ _ D), ptry_ret. reflexivity.
  - intros a k s x y rest D B. destruct (builtin x) as [v|] eqn:Eb; [|congruence].
    split; unfold parse_class; cbn [class_fuel]; unfold class_definition;
      rewrite (kind_complete _ _ _ _ D), ptry_ret; cbn [skip_string];
      rewrite body_element by (try reflexivity; congruence);
      unfold element_list, block; cbn [head_is element_stop];
      unfold t_element; cbn [take t_variability t_causality];
      unfold t_type; rewrite Eb; reflexivity.
Qed.
Print Assumptions C73_diagnostic_refuted.
Example C73_diagnostic_example : builtin (codes "Real") <> None /\
  parse_class (tokens_of "model M Real x(redeclare Real y); end M;") = Bad.
Proof. split; [discriminate|vm_compute; reflexivity]. Qed.

(** ** C74: only classes are read *)

(** Full statement: what is read is a class of the language. Proved for [relaxed_class],
    which has a comma after the last argument of an external call and derivatives of any
    expression by any expressions, and what [relaxed_expression], [relaxed_equation] and
    [relaxed_statement] have. *)
Theorem C74_only_partial : forall ts c rest,
  parse_class ts = Ok (Some (c, rest)) -> exists used, ts = used ++ rest /\ relaxed_class used c.
Proof.
  intros ts c rest H. destruct (class_sound _ _ _ _ H) as (u & -> & D). exists u. split; [reflexivity|].
  eexists. exact D.
Qed.
Print Assumptions C74_only_partial.
Example C74_only_example : parse_class (tokens_of big ++ [KSemi]) = Ok (Some (big_tree, [KSemi])).
Proof. vm_compute. reflexivity. Qed.

Theorem C74_file_partial : forall ts l rest,
  parse_root ts = Ok (Some (l, rest)) ->
  exists used, ts = used ++ rest /\ relaxed_file used l /\ (rest = [] \/ exists r, rest = KOther TokEOF :: r).
Proof. intros ts l rest H. destruct (root_sound _ _ _ _ _ H) as (u & l' & -> & E & D & R). subst l. now exists u. Qed.
Print Assumptions C74_file_partial.
Example C74_file_example :
  parse_root (tokens_of "record R end R; function f external ""C"" y = g(x); end f;" ++ [KOther TokEOF]) =
  Ok (Some ([Cls CRecord (codes "R") [] [] [] [] None None;
     Cls (CFunction true) (codes "f") [] [] [] []
       (Some (mkExternal (Some (codes "C")) (Some (mkECall (Some (name "y")) (codes "g") [name "x"])) None)) None],
     [KOther TokEOF])).
Proof. vm_compute. reflexivity. Qed.

Theorem C74_only_refuted : exists ts c,
  parse_class ts = Ok (Some (c, [])) /\ forall c', ~ modelica_class ts c'.
Proof.
  exists (tokens_of "function f = der(g);"), (PartialDer (codes "f") (name "g") []).
  split; [vm_compute; reflexivity|]. intros c' [d D]. destruct d; [destruct D|]. cbn [g_class_depth] in D.
  remember (tokens_of "function f = der(g);") as ts eqn:E. vm_compute in E.
  destruct D as [a k s c b ms es als cs q d' e f an _ _ _ _ _ _|a p s b f l c _ Db _].
  - assert (In KEnd (a ++ KIdent s :: c ++ b ++ d' ++ f ++ [KEnd; KIdent s; KSemi])) as H.
    { rewrite !in_app_iff. right. right. rewrite !in_app_iff. cbn. auto 10. }
    rewrite E in H. cbn in H. intuition discriminate.
  - destruct Db as [a' f b l _ _|a' e Ab|a' e b l Ab]; try discriminate.
    assert (In KComma (a ++ KIdent s :: KAssign :: KDer :: KLPar :: (a' ++ KComma :: b) ++ KRPar :: c ++ [KSemi])) as H.
    { rewrite in_app_iff. right. do 4 right. rewrite !in_app_iff. cbn. auto 10. }
    rewrite E in H. cbn in H. intuition discriminate.
Qed.
Print Assumptions C74_only_refuted.
