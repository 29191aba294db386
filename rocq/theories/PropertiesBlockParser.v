(** C69, C70, C71: the parser of equations and statements. *)
From Coq Require Import ZArith QArith List Bool String Lia.
From Verif Require Import Result LexerModel ParserModel ParserSpec ParserProofs ParserCompleteProofs
  BlockParserModel BlockParserSpec BlockParserProofs PropertiesParser.
Import ListNotations.
Local Open Scope string_scope.
Local Open Scope nat_scope.
Local Open Scope list_scope.

(** ** C69: the equations of the language are read with their trees *)

(** Full statement: the parser reads each equation of the language up to its end and
    gives its tree. Proved for [supported_equation]: equalities with their comment, for
    equations, and if equations without elseif, nested in any way. Missing: elseif, see
    [C69_elseif_refuted], when equations, see [C69_when_refuted], connect clauses, calls,
    and comments after other equations than equalities. *)
Theorem C69_reads_partial : forall used q rest,
  supported_equation used q -> ends_expression rest -> (forall s r, rest <> KStr s :: r) ->
  parse_equation (used ++ rest) = Ok (Some (q, rest)).
Proof.
  intros used q rest [d D] H N. apply (equation_complete d _ _ _ _ D); [|lia].
  split; [now apply ends_stop|]. destruct rest as [|t r]; auto. destruct t; auto. now apply (N s r).
Qed.
Print Assumptions C69_reads_partial.

Lemma named : forall fl rx s d, g_depth fl rx (S d) [KIdent s] (XRef false [(s, [])]).
Proof.
  intros. apply gex_simple, gsi_one, gle_one, glt_one, glf_one, grl_one, gar_one, gt_one, gf_one.
  apply gpr_ref, gre_local, sep_one, ge_plain.
Qed.
Lemma named_expr : forall fl rx s, g_expr fl rx [KIdent s] (XRef false [(s, [])]).
Proof. intros. exists 1. apply named. Qed.
Lemma named_simple : forall fl rx s, simple fl rx [KIdent s] (XRef false [(s, [])]).
Proof.
  intros. exists 0. apply gsi_one, gle_one, glt_one, glf_one, grl_one, gar_one, gt_one, gf_one.
  apply gpr_ref, gre_local, sep_one, ge_plain.
Qed.

(** A loop over a condition with two branches and a comment. *)
Example C69_reads_example :
  supported_equation (tokens_of "for i in n loop if a then x = y ""same""; else y = x; x = z; end if; end for")
    (QFor [(codes "i", Some (name "n"))]
       [QIf (name "a") [QEq (name "x") (name "y")] []
          [QEq (name "y") (name "x"); QEq (name "x") (name "z")]])
  /\ ends_expression [KSemi] /\ (forall s r, [KSemi] <> KStr s :: r).
Proof.
  split; [|split; [cbn; intuition discriminate|discriminate]].
  exists 3.
  change (tokens_of "for i in n loop if a then x = y ""same""; else y = x; x = z; end if; end for") with
    (KFor :: (KIdent (codes "i") :: KIn :: [KIdent (codes "n")]) ++ KLoop ::
      ((KIf :: [KIdent (codes "a")] ++ KThen ::
        (([KIdent (codes "x")] ++ KAssign :: [KIdent (codes "y")] ++ [KStr (codes "same")]) ++ KSemi :: []) ++
        [] ++
        (KElse :: ([KIdent (codes "y")] ++ KAssign :: [KIdent (codes "x")] ++ []) ++ KSemi ::
          (([KIdent (codes "x")] ++ KAssign :: [KIdent (codes "z")] ++ []) ++ KSemi :: [])) ++
        [KEnd; KIf]) ++ KSemi :: []) ++ [KEnd; KFor]).
  assert (Eq : forall d a b c, g_comment c ->
    g_equation_depth false false (S d) ([KIdent a] ++ KAssign :: [KIdent b] ++ c)
      (QEq (XRef false [(a, [])]) (XRef false [(b, [])]))).
  { intros. apply gq_eq; [apply named_simple|apply named_expr|auto]. }
  apply gq_for.
  - apply sep_one, gi_in, named_expr.
  - apply gb_cons; [|apply gb_nil].
    apply (gq_if false false _ _ (name "a") _ _ _ [] _ (Some _)).
    + apply named_expr.
    + apply gb_cons; [apply (Eq 0); constructor|apply gb_nil].
    + apply gbr_nil.
    + now right.
    + apply gelse_some, gb_cons; [apply (Eq 0); constructor|].
      apply gb_cons; [apply (Eq 0); constructor|apply gb_nil].
Qed.

Theorem C69_one_tree : forall used q q',
  supported_equation used q -> supported_equation used q' -> q = q'.
Proof.
  intros used q q' H H'.
  assert (N : forall s r, @nil tk <> KStr s :: r) by discriminate.
  pose proof (C69_reads_partial used q [] H I N) as Q. rewrite (C69_reads_partial used q' [] H' I N) in Q.
  now injection Q.
Qed.
Print Assumptions C69_one_tree.
Example C69_one_tree_example : supported_equation (tokens_of "x = y") (QEq (name "x") (name "y")).
Proof.
  exists 1. change (tokens_of "x = y") with ([KIdent (codes "x")] ++ KAssign :: [KIdent (codes "y")] ++ []).
  apply gq_eq; [apply named_simple|apply named_expr|constructor].
Qed.

(** Every if equation with an elseif ends the parser, although the language has it:
    the branches are written into a vector of no elements. *)
Theorem C69_elseif_refuted :
  (forall a x b l c br d o rest, supported_expression a x -> g_block supported_equation b l ->
   g_branches false false supported_equation KElseIf c br -> br <> [] ->
   g_else_block supported_equation d o ->
   parse_equation ((KIf :: a ++ KThen :: b ++ c ++ d ++ [KEnd; KIf]) ++ rest) = Bad)
  /\ exists used q, modelica_equation used q /\ parse_equation used = Bad.
Proof.
  split.
  - intros a x b l c br d o rest Da Db Dc Nb Dd. unfold parse_equation. cbn [equation_fuel app q_equation].
    unfold q_if. assoc. cbn [List.length].
    set (n := S (List.length (a ++ KThen :: b ++ c ++ d ++ KEnd :: KIf :: rest))).
    assert (CI : complete (equation_fuel n) supported_equation ends_equation n).
    { intros ts q r [k D]. now apply (equation_complete k). }
    assert (BI : forall ts q, supported_equation ts q -> starts_item ts).
    { intros ts q [k D]. now apply (equation_starts k) in D. }
    assert (OS : forall r, ends_equation (KSemi :: r)) by (intros r; split; cbn; auto).
    rewrite (parse_expression_reads _ _ _ Da); [|cbn; lia]. rewrite ptry_ret.
    destruct (else_head _ d o (KEnd :: KIf :: rest) Dd eq_refl) as (_ & H1 & _ & H2 & _).
    rewrite (block_complete _ _ _ _ CI OS BI _ if_stop_item _ _ Db);
      [|exact (head_branches _ if_stop KElseIf _ _ _ eq_refl Dc H1)|subst n; len|subst n; len].
    rewrite ptry_ret.
    rewrite (branches_complete _ _ _ _ CI OS BI if_stop is_elseif KElseIf if_stop_item eq_refl eq_refl _ _ Dc);
      [|exact H1|exact H2|subst n; len|subst n; len].
    rewrite ptry_ret.
    rewrite (else_complete _ _ _ _ CI OS BI _ _ Dd); [|reflexivity|subst n; len|subst n; len].
    rewrite ptry_ret. cbn [app]. destruct br as [|[e m] br]; [congruence|]. reflexivity.
  - exists (tokens_of "if a then elseif b then end if"), (QIf (name "a") [] [(name "b", [])] []).
    split; [|vm_compute; reflexivity]. exists 1.
    change (tokens_of "if a then elseif b then end if") with
      (KIf :: [KIdent (codes "a")] ++ KThen :: [] ++ (KElseIf :: [KIdent (codes "b")] ++ KThen :: [] ++ []) ++ [] ++ [KEnd; KIf]).
    apply (gq_if true false _ _ _ _ _ _ _ _ None); [apply named_expr|apply gb_nil| |now left|constructor].
    apply gbr_cons; [apply named_expr|apply gb_nil|constructor].
Qed.
Print Assumptions C69_elseif_refuted.
Example C69_elseif_example : exists c br,
  g_branches false false supported_equation KElseIf c br /\ br <> [].
Proof.
  exists (KElseIf :: [KIdent (codes "b")] ++ KThen :: [] ++ []), [(name "b", [])]. split; [|discriminate].
  apply gbr_cons; [apply named_expr|apply gb_nil|constructor].
Qed.

(** Every when equation is rejected: it would have to end with [end if]. *)
Theorem C69_when_refuted :
  (forall a x b l rest, supported_expression a x -> g_block supported_equation b l ->
   parse_equation ((KWhen :: a ++ KThen :: b ++ [KEnd; KWhen]) ++ rest) = Ok None)
  /\ exists used q, modelica_equation used q /\ parse_equation used = Ok None.
Proof.
  split.
  - intros a x b l rest Da Db. unfold parse_equation. cbn [equation_fuel app q_equation].
    unfold q_when. assoc. cbn [List.length].
    set (n := S (List.length (a ++ KThen :: b ++ KEnd :: KWhen :: rest))).
    assert (CI : complete (equation_fuel n) supported_equation ends_equation n).
    { intros ts q r [k D]. now apply (equation_complete k). }
    assert (BI : forall ts q, supported_equation ts q -> starts_item ts).
    { intros ts q [k D]. now apply (equation_starts k) in D. }
    assert (OS : forall r, ends_equation (KSemi :: r)) by (intros r; split; cbn; auto).
    rewrite (parse_expression_reads _ _ _ Da); [|cbn; lia]. rewrite ptry_ret.
    rewrite (block_complete _ _ _ _ CI OS BI _ when_stop_item _ _ Db); [reflexivity|reflexivity|subst n; len|subst n; len].
  - exists (tokens_of "when a then end when"), (QWhen (name "a") [] [] []).
    split; [|vm_compute; reflexivity]. exists 1.
    change (tokens_of "when a then end when") with
      (KWhen :: [KIdent (codes "a")] ++ KThen :: [] ++ [] ++ [KEnd; KWhen]).
    apply gq_when; [reflexivity|apply named_expr|apply gb_nil|constructor].
Qed.
Print Assumptions C69_when_refuted.
Example C69_when_example : g_block supported_equation (tokens_of "x = y;") [QEq (name "x") (name "y")].
Proof.
  change (tokens_of "x = y;") with (([KIdent (codes "x")] ++ KAssign :: [KIdent (codes "y")] ++ []) ++ KSemi :: []).
  apply gb_cons; [|apply gb_nil]. exists 1. apply gq_eq; [apply named_simple|apply named_expr|constructor].
Qed.

(** Only equations are read. Full statement: of the language. Proved for
    [relaxed_equation], which has the when equations that end with [end if]. *)
Theorem C69_only_partial : forall ts q rest,
  parse_equation ts = Ok (Some (q, rest)) ->
  exists used, ts = used ++ rest /\ relaxed_equation used q.
Proof.
  intros ts q rest H. destruct (equation_sound _ _ _ _ H) as (u & -> & D). exists u. split; [reflexivity|].
  eexists. exact D.
Qed.
Print Assumptions C69_only_partial.
Example C69_only_example :
  parse_equation (tokens_of "if a then x = 1; end if; y = 2") =
  Ok (Some (QIf (name "a") [QEq (name "x") (XInt 1)] [] [], tokens_of "; y = 2")).
Proof. vm_compute. reflexivity. Qed.

Theorem C69_only_refuted : exists ts q,
  parse_equation ts = Ok (Some (q, [])) /\ forall q', ~ modelica_equation ts q'.
Proof.
  exists (tokens_of "when a then end if"), (QWhen (name "a") [] [] []). split; [vm_compute; reflexivity|].
  intros q' [d D]. destruct d; [destruct D|]. cbn [g_equation_depth] in D.
  remember (tokens_of "when a then end if") as ts eqn:E. vm_compute in E.
  destruct D as [a x b y c _ _ _|a x b l c br d' o|a ix b l|a x b l c br _ _ _ _|a x b l d' o Ab]; try discriminate.
  - assert (In KAssign (a ++ KAssign :: b ++ c)) as H by (apply in_elt).
    rewrite E in H. cbn in H. intuition discriminate.
  - assert (last (KWhen :: a ++ KThen :: b ++ c ++ [KEnd; KWhen]) KSemi = KWhen) as H.
    { replace (KWhen :: a ++ KThen :: b ++ c ++ [KEnd; KWhen]) with
        ((KWhen :: a ++ KThen :: b ++ c ++ [KEnd]) ++ [KWhen]) by (cbn; now rewrite <- !app_assoc; cbn; rewrite <- !app_assoc).
      apply last_last. }
    rewrite E in H. discriminate.
Qed.
Print Assumptions C69_only_refuted.

(** ** C70: the statements of the language are read with their trees *)

(** Full statement: the parser reads each statement of the language up to its end and
    gives its tree. Proved for [supported_statement]; when statements, see
    [C70_when_refuted], call statements without arguments, see [C70_call_refuted], and
    comments are missing. *)
Theorem C70_reads_partial : forall used z rest,
  supported_statement used z -> ends_expression rest ->
  parse_statement (used ++ rest) = Ok (Some (z, rest)).
Proof.
  intros used z rest [d D] H. apply (statement_complete d _ _ _ _ D); [now apply ends_stop|lia].
Qed.
Print Assumptions C70_reads_partial.

Lemma named_reference : forall E s, g_reference true E [KIdent s] (XRef false [(s, [])]).
Proof. intros. apply gre_local, sep_one, ge_plain. Qed.

(** All branches of a condition, a loop, an assignment of several values. *)
Example C70_reads_example :
  supported_statement (tokens_of "if a then x := y; elseif b then break; else while c loop (x, , y) := f(z); end while; end if")
    (ZIf (name "a") [ZAssign [name "x"] (name "y")] [(name "b", [ZBreak])]
       (Some [ZWhile (name "c") [ZAssign [name "x"; XDummy; name "y"] (XCall (name "f") [AExpr (name "z")])]]))
  /\ ends_expression [KSemi].
Proof.
  split; [|cbn; intuition discriminate]. exists 3.
  change (tokens_of "if a then x := y; elseif b then break; else while c loop (x, , y) := f(z); end while; end if") with
    (KIf :: [KIdent (codes "a")] ++ KThen ::
      (([KIdent (codes "x")] ++ KAssignOp :: [KIdent (codes "y")]) ++ KSemi :: []) ++
      (KElseIf :: [KIdent (codes "b")] ++ KThen :: ([KBreak] ++ KSemi :: []) ++ []) ++
      (KElse :: (KWhile :: [KIdent (codes "c")] ++ KLoop ::
         ((KLPar :: ([KIdent (codes "x")] ++ KComma :: KComma :: [KIdent (codes "y")]) ++ KRPar :: KAssignOp ::
           [KIdent (codes "f")] ++ (KLPar :: [KIdent (codes "z")] ++ [KRPar])) ++ KSemi :: []) ++ [KEnd; KWhile])
         ++ KSemi :: []) ++ [KEnd; KIf]).
  apply gz_if.
  - apply named_expr.
  - apply gb_cons; [|apply gb_nil]. apply gz_assign; [apply named_reference|apply named_expr].
  - apply gbr_cons; [apply named_expr| |apply gbr_nil]. apply gb_cons; [apply gz_break|apply gb_nil].
  - apply gelse_some, gb_cons; [|apply gb_nil]. apply gz_while; [apply named_expr|].
    apply gb_cons; [|apply gb_nil]. apply gz_tuple.
    + right. apply go_more; [apply named_expr|]. apply go_skip, go_last, named_expr.
    + apply named_reference.
    + apply gc_some, ga_rest, gr_last, named_expr.
Qed.

Theorem C70_one_tree : forall used z z',
  supported_statement used z -> supported_statement used z' -> z = z'.
Proof.
  intros used z z' H H'.
  pose proof (C70_reads_partial used z [] H I) as Q. rewrite (C70_reads_partial used z' [] H' I) in Q.
  now injection Q.
Qed.
Print Assumptions C70_one_tree.
Example C70_one_tree_example : supported_statement (tokens_of "x := y") (ZAssign [name "x"] (name "y")).
Proof.
  exists 1. change (tokens_of "x := y") with ([KIdent (codes "x")] ++ KAssignOp :: [KIdent (codes "y")]).
  apply gz_assign; [apply named_reference|apply named_expr].
Qed.

(** Every when statement is rejected: [loop] is expected in place of [then]. *)
Theorem C70_when_refuted :
  (forall a x rest, supported_expression a x -> parse_statement (KWhen :: a ++ KThen :: rest) = Ok None)
  /\ exists used z, modelica_statement used z /\ parse_statement used = Ok None.
Proof.
  split.
  - intros a x rest Da. unfold parse_statement. cbn [statement_fuel z_statement]. unfold z_when.
    rewrite (parse_expression_reads _ _ _ Da); [reflexivity|cbn; lia].
  - exists (tokens_of "when a then end when"), (ZWhen (name "a") []).
    split; [|vm_compute; reflexivity]. exists 1.
    change (tokens_of "when a then end when") with (KWhen :: [KIdent (codes "a")] ++ KThen :: [] ++ [KEnd; KWhen]).
    apply gz_when; [reflexivity|apply named_expr|apply gb_nil].
Qed.
Print Assumptions C70_when_refuted.

(** Every call statement without arguments ends the parser. *)
Theorem C70_call_refuted :
  (forall a f rest, g_reference true supported_expression a f ->
   parse_statement (a ++ KLPar :: KRPar :: rest) = Bad)
  /\ exists used z, modelica_statement used z /\ parse_statement used = Bad.
Proof.
  split.
  - intros a f rest Da. unfold parse_statement. cbn [statement_fuel].
    destruct (reference_starts _ _ _ Da) as (t & u & Ea & Ht).
    pose proof (reference_complete _ _ (KLPar :: KRPar :: rest) Da I I) as Q.
    assert (Z : forall P n, z_statement P n (a ++ KLPar :: KRPar :: rest) = z_reference (a ++ KLPar :: KRPar :: rest)).
    { intros P n. subst a. destruct Ht as [->|[s ->]]; reflexivity. }
    rewrite Z. unfold z_reference. rewrite Q, ptry_ret. reflexivity.
  - exists (tokens_of "f()"), (ZCall (XCall (name "f") [])).
    split; [|vm_compute; reflexivity]. exists 1.
    change (tokens_of "f()") with ([KIdent (codes "f")] ++ [KLPar; KRPar]).
    apply gz_call_none; [reflexivity|apply named_reference].
Qed.
Print Assumptions C70_call_refuted.

(** Only statements are read. Full statement: of the language. Proved for
    [relaxed_statement], which has the when statements with [loop]. *)
Theorem C70_only_partial : forall ts z rest,
  parse_statement ts = Ok (Some (z, rest)) ->
  exists used, ts = used ++ rest /\ relaxed_statement used z.
Proof.
  intros ts z rest H. destruct (statement_sound _ _ _ _ H) as (u & -> & D). exists u. split; [reflexivity|].
  eexists. exact D.
Qed.
Print Assumptions C70_only_partial.
Example C70_only_example :
  parse_statement (tokens_of "for i in 1:3, j loop x[i] := j; f(i); return; end for; y := 1") =
  Ok (Some (ZFor [(codes "i", Some (XOp ORange [XInt 1; XInt 3])); (codes "j", None)]
     [ZAssign [XRef false [(codes "x", [SExpr (name "i")])]] (name "j");
      ZCall (XCall (name "f") [AExpr (name "i")]); ZReturn], tokens_of "; y := 1")).
Proof. vm_compute. reflexivity. Qed.

Theorem C70_only_refuted : exists ts z,
  parse_statement ts = Ok (Some (z, [])) /\ forall z', ~ modelica_statement ts z'.
Proof.
  exists (tokens_of "when a loop end when"), (ZWhen (name "a") []). split; [vm_compute; reflexivity|].
  intros z' [d D]. destruct d; [destruct D|]. cbn [g_statement_depth] in D.
  remember (tokens_of "when a loop end when") as ts eqn:E. vm_compute in E.
  destruct D as [a f b e _ _|a f b l _ _|a f _ _|a l b f c args| | |a x b l c br d' o|a ix b l|a x b l
    |a x b l _ _ _|a x b l Ab]; try discriminate.
  - assert (In KAssignOp (a ++ KAssignOp :: b)) as H by (apply in_elt).
    rewrite E in H. cbn in H. intuition discriminate.
  - assert (In KLPar (a ++ KLPar :: b ++ [KRPar])) as H by (apply in_elt).
    rewrite E in H. cbn in H. intuition discriminate.
  - assert (In KLPar (a ++ [KLPar; KRPar])) as H by (apply in_elt).
    rewrite E in H. cbn in H. intuition discriminate.
  - assert (In KThen (KWhen :: a ++ KThen :: b ++ [KEnd; KWhen])) as H by (right; apply in_elt).
    rewrite E in H. cbn in H. intuition discriminate.
Qed.
Print Assumptions C70_only_refuted.

(** ** C71: the parser of equations and statements ends *)

(** Full statement: it ends with a tree or a diagnostic, on every sequence of tokens.
    Proved: it ends. The rest is false, see [C69_elseif_refuted], [C70_call_refuted]. *)
Theorem C71_ends_partial : forall ts, parse_equation ts <> NoFuel /\ parse_statement ts <> NoFuel.
Proof. intros ts. split; [apply equation_fine|apply statement_fine]; lia. Qed.
Print Assumptions C71_ends_partial.

(** What is read is never nothing, so the loops of the sections end too. *)
Theorem C71_progress : forall ts rest,
  (forall q, parse_equation ts = Ok (Some (q, rest)) -> List.length rest < List.length ts)
  /\ (forall z, parse_statement ts = Ok (Some (z, rest)) -> List.length rest < List.length ts).
Proof.
  intros ts rest. split; intros x H; [exact (equation_progress _ _ _ _ H)|exact (statement_progress _ _ _ _ H)].
Qed.
Print Assumptions C71_progress.
Example C71_progress_example :
  parse_equation (tokens_of "x = 1; y") = Ok (Some (QEq (name "x") (XInt 1), tokens_of "; y"))
  /\ parse_statement (tokens_of "break;") = Ok (Some (ZBreak, [KSemi])).
Proof. split; vm_compute; reflexivity. Qed.

(** A block that is not closed is a violated assertion, not a diagnostic. *)
Theorem C71_ends_refuted : exists ts, ts = tokens_of "if a then x = 1;" /\ parse_equation ts = Bad.
Proof. eexists. split; [reflexivity|]. vm_compute. reflexivity. Qed.
Print Assumptions C71_ends_refuted.
