(** C66 and C72 from the text: keywords and symbols mean what the language says. *)
From Coq Require Import ZArith QArith List Bool String Lia.
From Verif Require Import Result LexerModel LexerSpec LexerProofs ParserModel ParserSpec TokenSpec
  BlockParserModel ClassParserModel ClassParserSpec PropertiesParser PropertiesClassParser.
Import ListNotations.
Local Open Scope nat_scope.
Local Open Scope list_scope.

(** The parser takes every keyword and symbol for what the language says, and nothing
    else for one of them. *)
Theorem C66_kinds : forall t k,
  (token_kind t k -> tk_of t = k) /\ (tk_of t = k -> token_kind t k \/ k = KOther t).
Proof.
  intros t k. split.
  - intros H. inversion H as [| | | |k0 w E|k0 w E]; subst; try reflexivity.
    + destruct k; try discriminate E; try (injection E as <-; vm_compute; reflexivity).
      destruct w0; injection E as <-; vm_compute; reflexivity.
    + destruct k; try discriminate E; injection E as <-; vm_compute; reflexivity.
  - intros <-. destruct t; try (left; constructor); auto.
    + cbn [tk_of]. unfold find_kind. destruct (find _ key_kinds) as [[w k]|] eqn:E; auto. left.
      apply find_some in E as [I E]. apply text_eqb_eq in E. cbn [fst snd] in *. subst name.
      cbn [key_kinds In] in I.
      repeat (destruct I as [I|I]; [injection I as <- <-; constructor; reflexivity|]). destruct I.
    + cbn [tk_of]. unfold find_kind. destruct (find _ sym_kinds) as [[w k]|] eqn:E; auto. left.
      apply find_some in E as [I E]. apply text_eqb_eq in E. cbn [fst snd] in *. subst s.
      cbn [sym_kinds In] in I.
      repeat (destruct I as [I|I]; [injection I as <- <-; constructor; reflexivity|]). destruct I.
Qed.
Print Assumptions C66_kinds.

Lemma kinds_eq : forall ts ks, Forall2 token_kind ts ks -> map tk_of ts = ks.
Proof. induction 1 as [|t k ts ks H _ IH]; cbn; auto. f_equal; auto. now apply C66_kinds. Qed.

(** From the characters to the tree: a text whose words, as the language reads them, are
    an expression is read as that expression. *)
Theorem C66_characters_partial : forall (seps : list sepitem) (p : program),
  Forall sepitem_ok seps -> program_ok p ->
  exists ks, lex (sep_text seps ++ program_text p) = Ok (ks ++ [TokEOF])
    /\ Forall2 ltok_denotes (program_tokens p) ks
    /\ forall kinds e, Forall2 token_kind ks kinds -> supported_expression kinds e ->
       parse_expression (map tk_of (ks ++ [TokEOF])) = Ok (Some (e, [KOther TokEOF])).
Proof.
  intros seps p Hs Hp. destruct (C66_text_partial seps p Hs Hp) as (ks & L & F & H). exists ks.
  split; auto. split; auto. intros kinds e K D. apply H. now rewrite (kinds_eq _ _ K).
Qed.
Print Assumptions C66_characters_partial.

(** The same for files of classes. *)
Theorem C72_characters_partial : forall (seps : list sepitem) (p : program),
  Forall sepitem_ok seps -> program_ok p ->
  exists ks, lex (sep_text seps ++ program_text p) = Ok (ks ++ [TokEOF])
    /\ Forall2 ltok_denotes (program_tokens p) ks
    /\ forall kinds l, Forall2 token_kind ks kinds -> supported_file kinds l ->
       parse_root (map tk_of (ks ++ [TokEOF])) = Ok (Some (l, [KOther TokEOF])).
Proof.
  intros seps p Hs Hp. destruct (C66_text_partial seps p Hs Hp) as (ks & L & F & _). exists ks.
  split; auto. split; auto. intros kinds l K D. rewrite map_app, (kinds_eq _ _ K).
  apply (C72_file_partial kinds l D).
Qed.
Print Assumptions C72_characters_partial.

(** A text, its tokens and what they mean. *)
Example C66_kinds_case : exists ks, lex (codes "if a <> 1 and not b then x .^ 2 else der(y)") = Ok (ks ++ [TokEOF]) /\
  Forall2 token_kind ks
    [KIf; KIdent (codes "a"); KNe; KInt 1; KAnd; KNot; KIdent (codes "b"); KThen; KIdent (codes "x"); KPowEW;
     KInt 2; KElse; KDer; KLPar; KIdent (codes "y"); KRPar].
Proof.
  exists [TokKey (codes "if"); TokIdent (codes "a"); TokSym (codes "<>"); TokInt 1; TokKey (codes "and"); TokKey (codes "not");
    TokIdent (codes "b"); TokKey (codes "then"); TokIdent (codes "x"); TokSym (codes ".^"); TokInt 2; TokKey (codes "else");
    TokKey (codes "der"); TokSym (codes "("); TokIdent (codes "y"); TokSym (codes ")")].
  split; [vm_compute; reflexivity|]. repeat (constructor; [constructor; reflexivity|]). constructor.
Qed.
