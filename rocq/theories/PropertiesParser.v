(** C66, C67, C68: the parser of expressions. *)
From Coq Require Import ZArith QArith List Bool String Lia.
From Verif Require Import Result LexerModel LexerSpec LexerProofs ParserModel ParserSpec ParserProofs
  ParserCompleteProofs.
Import ListNotations.
Local Open Scope string_scope.
Local Open Scope nat_scope.
Local Open Scope list_scope.

(** A text and its tokens, for the examples. *)
Definition tokens_of (s : string) : list tk :=
  match lex (codes s) with
  | Ok ks => map tk_of (removelast ks)
  | _ => []
  end.
Definition name (s : string) : expr := XRef false [(codes s, [])].

(** ** C66: the expressions of the language are read with their trees *)

(** Full statement: whatever follows, the parser reads an expression of the language
    up to its end and gives its tree. Proved for [supported_expression]; elseif in
    expressions, references that start with a dot, the signs .+ and .-, lists of outputs
    that end with a missing output, matrix constructors, end and partial applications
    are missing, see [C66_reads_refuted] and [C66_tree_refuted]. *)
Theorem C66_reads_partial : forall used e rest,
  supported_expression used e -> ends_expression rest ->
  parse_expression (used ++ rest) = Ok (Some (e, rest)).
Proof.
  intros used e rest [d D] Ok. apply (parse_complete d _ _ _ _ D); [now apply ends_stop|lia].
Qed.
Print Assumptions C66_reads_partial.

(** Subtractions from the left, below them the power, and a call with a named argument. *)
Example C66_reads_example :
  supported_expression (tokens_of "a - b - c ^ 2 > 0 and f(x, n = -1)")
    (XOp OAnd [XOp OGt [XOp OSub [XOp OSub [name "a"; name "b"]; XOp OPow [name "c"; XInt 2]]; XInt 0];
               XCall (name "f") [AExpr (name "x"); ANamed (codes "n") (XOp ONegate [XInt 1])]])
  /\ ends_expression [KSemi].
Proof.
  assert (Nm : forall E s, g_primary false false E [KIdent s] (XRef false [(s, [])])).
  { intros. apply gpr_ref, gre_local, sep_one, ge_plain. }
  assert (Tm : forall E ts e, g_primary false false E ts e -> g_term false false E ts e).
  { intros. now apply gt_one, gf_one. }
  assert (Up : forall d ts e, g_arith false false (g_depth false false d) ts e -> g_depth false false (S d) ts e).
  { intros. now apply gex_simple, gsi_one, gle_one, glt_one, glf_one, grl_one. }
  split; [|cbn; intuition discriminate].
  exists 2. apply gex_simple, gsi_one, gle_one, glt_and; [|cbn; lia].
  change (tokens_of "a - b - c ^ 2 > 0 and f(x, n = -1)") with
    ((((([KIdent (codes "a")] ++ KMinus :: [KIdent (codes "b")]) ++ KMinus :: ([KIdent (codes "c")] ++ KPow :: [KInt 2]))
       ++ KGt :: [KInt 0]) ++ KAnd ::
     ([KIdent (codes "f")] ++ KLPar :: ([KIdent (codes "x")] ++ KComma :: (KIdent (codes "n") :: KAssign :: [KMinus; KInt 1])) ++ [KRPar]))).
  apply sep_more.
  - apply glf_one, grl_op; [|cbn; tauto|apply gar_one, Tm; constructor].
    apply gar_op; [|cbn; tauto|].
    + apply gar_op; [apply gar_one, Tm, Nm|cbn; tauto|apply Tm, Nm].
    + apply gt_one, gf_pow; [apply Nm|cbn; tauto|constructor].
  - apply sep_one, glf_one, grl_one, gar_one, Tm, gpr_app, gap_ref.
    + apply gre_local, sep_one, ge_plain.
    + apply gc_some, ga_rest, gr_more; [apply (Up 0), gar_one, Tm, Nm|].
      apply gr_named, sep_one, gn, (Up 0), gar_minus, Tm. constructor.
Qed.

(** A text of the language has one tree. *)
Theorem C66_one_tree : forall used e e',
  supported_expression used e -> supported_expression used e' -> e = e'.
Proof.
  intros used e e' H H'.
  pose proof (C66_reads_partial used e [] H I) as Q. rewrite (C66_reads_partial used e' [] H' I) in Q.
  now injection Q.
Qed.
Print Assumptions C66_one_tree.
Example C66_one_tree_example : supported_expression (tokens_of "a") (name "a").
Proof.
  exists 1. apply gex_simple, gsi_one, gle_one, glt_one, glf_one, grl_one, gar_one, gt_one, gf_one.
  apply gpr_ref, gre_local, sep_one, ge_plain.
Qed.

(** From the characters: the text of a program, with separators and comments between its
    words, is cut into tokens; if these are an expression, it is read to its end. *)
Theorem C66_text_partial : forall (seps : list sepitem) (p : program),
  Forall sepitem_ok seps -> program_ok p ->
  exists ks, lex (sep_text seps ++ program_text p) = Ok (ks ++ [TokEOF])
    /\ Forall2 ltok_denotes (program_tokens p) ks
    /\ forall e, supported_expression (map tk_of ks) e ->
       parse_expression (map tk_of (ks ++ [TokEOF])) = Ok (Some (e, [KOther TokEOF])).
Proof.
  intros seps p Hs Hp. destruct (lex_correct seps p Hs Hp) as (ks & L & F).
  exists ks. split; [exact L|]. split; [exact F|]. intros e H. rewrite map_app.
  apply C66_reads_partial; auto. cbn. intuition discriminate.
Qed.
Print Assumptions C66_text_partial.
Example C66_text_example : exists p, program_ok p
  /\ exists ks, lex (program_text p) = Ok (ks ++ [TokEOF]) /\ supported_expression (map tk_of ks) (name "a").
Proof.
  exists [(LtQuoted (codes "a"), [])].
  split; [split; [|split; [constructor|split; exact I]]; repeat constructor; discriminate|].
  exists [TokIdent (codes "a")]. split; [vm_compute; reflexivity|].
  exists 1. apply gex_simple, gsi_one, gle_one, glt_one, glf_one, grl_one, gar_one, gt_one, gf_one.
  apply gpr_ref, gre_local, sep_one, ge_plain.
Qed.

(** An expression of the language that is rejected: elseif. *)
Theorem C66_reads_refuted : exists used e,
  modelica_expression used e /\ parse_expression used = Ok None.
Proof.
  exists (tokens_of "if a then b elseif c then d else e"),
    (XOp OIfElse [name "a"; name "b"; XOp OIfElse [name "c"; name "d"; name "e"]]).
  assert (Nm : forall s, g_depth true false 1 [KIdent s] (XRef false [(s, [])])).
  { intros s. apply gex_simple, gsi_one, gle_one, glt_one, glf_one, grl_one, gar_one, gt_one, gf_one.
    apply gpr_ref, gre_local, sep_one, ge_plain. }
  split; [|vm_compute; reflexivity]. exists 2.
  change (tokens_of "if a then b elseif c then d else e") with
    (KIf :: [KIdent (codes "a")] ++ KThen :: [KIdent (codes "b")] ++
      (KElseIf :: [KIdent (codes "c")] ++ KThen :: [KIdent (codes "d")] ++ (KElse :: [KIdent (codes "e")]))).
  apply gex_if; [apply Nm|apply Nm|]. apply gel_elseif; [reflexivity|apply Nm|apply Nm|].
  apply gel_else. apply Nm.
Qed.
Print Assumptions C66_reads_refuted.

(** An expression of the language that ends the parser: a reference from the top scope. *)
Theorem C66_crash_refuted : exists used e,
  modelica_expression used e /\ parse_expression used = Bad.
Proof.
  exists (tokens_of ".a"), (XRef true [(codes "a", [])]). split; [|vm_compute; reflexivity].
  exists 1. apply gex_simple, gsi_one, gle_one, glt_one, glf_one, grl_one, gar_one, gt_one, gf_one.
  change (tokens_of ".a") with (KDot :: [KIdent (codes "a")]).
  apply gpr_ref, gre_global, sep_one, ge_plain. reflexivity.
Qed.
Print Assumptions C66_crash_refuted.

(** A list of outputs that is read with another tree: the missing last output is lost. *)
Theorem C66_tree_refuted : exists used e e',
  modelica_expression used e /\ parse_expression used = Ok (Some (e', [])) /\ e <> e'.
Proof.
  exists (tokens_of "(a, )"), (XTuple [name "a"; XDummy]), (name "a").
  split; [|split; [vm_compute; reflexivity|discriminate]].
  exists 2. apply gex_simple, gsi_one, gle_one, glt_one, glf_one, grl_one, gar_one, gt_one, gf_one.
  change (tokens_of "(a, )") with (KLPar :: ([KIdent (codes "a")] ++ KComma :: []) ++ [KRPar]).
  apply gpr_parens, gp_many; [|discriminate]. apply go_more; [|now apply go_empty].
  apply gex_simple, gsi_one, gle_one, glt_one, glf_one, grl_one, gar_one, gt_one, gf_one.
  apply gpr_ref, gre_local, sep_one, ge_plain.
Qed.
Print Assumptions C66_tree_refuted.

(** ** C67: the parser ends, for every sequence of tokens *)

(** Full statement: it ends with a tree or a diagnostic. Proved: it ends. The rest is
    false, see [C67_ends_refuted]. *)
Theorem C67_ends_partial : forall ts, parse_expression ts <> NoFuel.
Proof. intros ts. apply parse_fine. lia. Qed.
Print Assumptions C67_ends_partial.

(** What is read is never nothing, so loops of expressions end too. *)
Theorem C67_progress : forall ts e rest,
  parse_expression ts = Ok (Some (e, rest)) -> List.length rest < List.length ts.
Proof.
  intros ts e rest H. eapply (sound_progress _ _ _ (parse_sound _) (t_depth _ _ _)). exact H.
Qed.
Print Assumptions C67_progress.
Example C67_progress_example :
  parse_expression (tokens_of "a + 1; b") = Ok (Some (XOp OAdd [name "a"; XInt 1], tokens_of "; b")).
Proof. vm_compute. reflexivity. Qed.

(** A missing operand is a violated assertion, not a diagnostic. *)
Theorem C67_ends_refuted : exists ts, parse_expression ts = Bad /\ ts = tokens_of "a + ;".
Proof. eexists. split; [|reflexivity]. vm_compute. reflexivity. Qed.
Print Assumptions C67_ends_refuted.

(** ** C68: only expressions are read *)

(** Full statement: what is read is an expression of the language. Proved for
    [relaxed_expression], which has chains of powers, outputs that are not separated and
    subscripts after arrays and calls. *)
Theorem C68_only_partial : forall ts e rest,
  parse_expression ts = Ok (Some (e, rest)) ->
  exists used, ts = used ++ rest /\ relaxed_expression used e.
Proof.
  intros ts e rest H. destruct (parse_sound _ _ _ _ H) as (u & -> & D). exists u. split; [reflexivity|].
  eexists. exact D.
Qed.
Print Assumptions C68_only_partial.
Example C68_only_example :
  parse_expression (tokens_of "x[1, :].y(z) ^ 2 ^ 3") =
  Ok (Some (XOp OPow [XOp OPow
     [XCall (XRef false [(codes "x", [SExpr (XInt 1); SAll]); (codes "y", [])]) [AExpr (name "z")]; XInt 2]; XInt 3], [])).
Proof. vm_compute. reflexivity. Qed.

(** A text that is read and is no expression of the language. *)
Theorem C68_only_refuted : exists ts e,
  parse_expression ts = Ok (Some (e, [])) /\ forall e', ~ modelica_expression ts e'.
Proof.
  exists (tokens_of "(a b)"), (XTuple [name "a"; name "b"]). split; [vm_compute; reflexivity|].
  intros e' [d D]. exact (two_in_parens_none _ _ _ _ D).
Qed.
Print Assumptions C68_only_refuted.
