(** Properties of the variable filter: C44 (its text) and C45 (what it shows). *)
From Coq Require Import ZArith List Bool String Lia.
From Verif Require Import RangeModel MDRangeModel Spec Result BoxSetModel BoxSetProofs SubscriptModel LexerModel LexerSpec
  FloatLexerProofs LexerProofs VFModel VFSpec VFProofs.
Import ListNotations.
Local Open Scope string_scope.
Local Open Scope list_scope.
Local Open Scope Z_scope.

(** ** C44 *)

(** The text of any list of rules, parsed, is the filter of those rules, and
    that filter holds exactly those rules. Partial: the bounds fit in an int
    (see the refutation) and the regular expressions contain no slash. *)
Theorem C44_roundtrip_partial : forall rvalid rules, Forall (rule_ok rvalid) rules ->
  exists f, fromString rvalid (filter_text rules) = Ok (Some f)
    /\ (forall n, tfind n (vf_variables f) = match rules_of rules n with [] => None | l => Some l end)
    /\ (forall n, (exists x, tfind n (vf_derivatives f) = Some x) <-> In (RDer n) rules)
    /\ vf_regex f = regexes_of rules
    /\ (vf_enabled f = true <-> rules <> []).
Proof.
  intros rvalid rules R. exists (filter_of rules). split; [now apply parse_printed|].
  destruct (filter_of_spec rules) as (V & D & X & E). split; [|split; [|split]]; auto.
  - intros n. rewrite V. destruct (rules_of rules n); reflexivity.
  - rewrite E. destruct rules; split; congruence.
Qed.
Print Assumptions C44_roundtrip_partial.
(** x[1:3,$:12];der(y);/a.*b/ *)
Definition sample_rules : list rule :=
  [RVar (codes "x") [(Some [1], Some [3]); (None, Some [1; 2])]; RDer (codes "y"); RRegex (codes "a.*b"); RVar (codes "x") []].
Example C44_roundtrip_nonvacuous : Forall (rule_ok (fun _ => true)) sample_rules
  /\ filter_text sample_rules = codes "x[1:3,$:12];der(y);/a.*b/;x".
Proof.
  split; [|vm_compute; reflexivity]. unfold sample_rules.
  assert (N : forall c, letter c -> filter_name [c]).
  { intros c L. split; [discriminate|]. exists c, []. auto. }
  assert (L : forall b : option (list Z), In b [None; Some [1]; Some [3]; Some [1; 2]] -> bound_ok b).
  { intros b I. repeat destruct I as [<-|I]; try contradiction; cbn; auto;
      (split; [discriminate|split; [repeat constructor; lia|unfold decimal; cbn; lia]]). }
  repeat constructor; try (apply N; unfold letter; cbn; lia); try (apply L; cbn; tauto); try discriminate; cbn; lia.
Qed.

(** The same for any spacing of the tokens. *)
Theorem C44_spaces_partial : forall rvalid rules sp toks, Forall (rule_ok rvalid) rules -> Forall space sp ->
  map fst toks = filter_tokens rules -> wtext_ok toks ->
  fromString rvalid (sp ++ wtext toks) = fromString rvalid (filter_text rules).
Proof. intros. rewrite parse_printed by auto. now apply parse_spaced. Qed.
Print Assumptions C44_spaces_partial.
(** "x [ 1:2 ] ;" without the semicolon. *)
Example C44_spaces_nonvacuous : exists toks, wtext_ok toks /\ wtext toks = codes "x [ 1:$ ]"
  /\ map fst toks = filter_tokens [RVar (codes "x") [(Some [1], None)]].
Proof.
  exists [(WIdent (codes "x"), [32]); (WSym 91, [32]); (WInt [1], []); (WSym 58, []); (WSym 36, [32]); (WSym 93, [])].
  split; [|split; reflexivity].
  assert (S : Forall space [32]) by (repeat constructor; unfold space; lia).
  cbn; unfold letter, digit, digits_ok, decimal, filter_name; cbn; repeat split; auto; try tauto; try lia; try discriminate.
  - exists 120, []. repeat split; auto. unfold letter. lia.
  - repeat constructor; lia.
Qed.

(** Lexing any sequence of written tokens gives those tokens. *)
Theorem C44_tokens : forall sp toks, Forall space sp -> wtext_ok toks ->
  vlex (sp ++ wtext toks) = Ok (map (fun x => wtok_token (fst x)) toks ++ [VEOF]).
Proof. exact vlex_correct. Qed.
Print Assumptions C44_tokens.
(** "der 12/x+/" is three tokens. *)
Example C44_tokens_nonvacuous : exists toks, wtext_ok toks /\ wtext toks = codes "der 12/x+/"
  /\ map (fun x => wtok_token (fst x)) toks = [VDer; VInt 12; VRegex (codes "x+")].
Proof.
  exists [(WDer, [32]); (WInt [1; 2], []); (WRegex (codes "x+"), [])]. split; [|split; reflexivity].
  cbn; unfold letter, digit, digits_ok, decimal; cbn; repeat split; auto; try lia; try discriminate;
    repeat constructor; unfold space; cbn; try lia.
Qed.

(** The lexer and the parser end on every text; the only failure is the
    overflow of an integer literal in the lexer. *)
Theorem C44_total : forall rvalid s,
  vlex s <> NoFuel /\ fromString rvalid s <> NoFuel
  /\ (forall l, vlex s = Ok l ->
        (exists ts, l = ts ++ [VEOF] /\ ~ In VEOF ts) /\ exists o, fromString rvalid s = Ok o).
Proof.
  intros rvalid s. destruct (vlex_total s) as [N L], (fromString_total rvalid s) as [M K]. eauto 6.
Qed.
Print Assumptions C44_total.
(** An unterminated regular expression is one error token and a syntax error. *)
Example C44_total_nonvacuous : vlex (codes "x/a") = Ok [VIdent (codes "x"); VErr; VEOF]
  /\ fromString (fun _ => true) (codes "x/a") = Ok None.
Proof. split; vm_compute; reflexivity. Qed.

(** A bound that does not fit in an int is truncated without an error:
    x[4294967295:5] is x[$:5], and x[4294967297:5] is x[1:5]. *)
Theorem C44_bound_refuted : exists f g,
  fromString (fun _ => true) (codes "x[4294967295:5]") = Ok (Some f)
  /\ fromString (fun _ => true) (codes "x[$:5]") = Ok (Some f)
  /\ fromString (fun _ => true) (codes "x[4294967297:5]") = Ok (Some g)
  /\ fromString (fun _ => true) (codes "x[1:5]") = Ok (Some g).
Proof.
  eexists _, _. split; [vm_compute; reflexivity|]. split; [vm_compute; reflexivity|].
  split; vm_compute; reflexivity.
Qed.
Print Assumptions C44_bound_refuted.
(** A regular expression with an escaped slash cannot be written: "/a\/b/" is
    not the expression a\/b but a syntax error. *)
Theorem C44_slash_refuted : fromString (fun _ => true) (codes "/a\/b/") = Ok None
  /\ exists f, fromString (fun _ => true) (codes "/a/") = Ok (Some f).
Proof. split; [vm_compute; reflexivity|]. eexists. vm_compute. reflexivity. Qed.
Print Assumptions C44_slash_refuted.

(** ** C45 *)

(** A variable is shown exactly when there is no filter, an expression matches
    its name, or a rule names it. *)
Theorem C45_visible : forall rmatch rules name rank,
  (exists i, In i (getVariableInfo rmatch (filter_of rules) name rank) /\ fst i = true) <->
  (rules = [] \/ (exists r, In (RRegex r) rules /\ rmatch r name = true) \/ exists s, In (RVar name s) rules).
Proof.
  intros rmatch rules name rank. destruct (info_spec rmatch rules name rank) as [I1 I2].
  destruct (rules_of rules name) as [|x xs] eqn:E.
  - destruct (I2 eq_refl) as (v & -> & V). split.
    + intros (i & [<-|[]] & H). cbn in H. apply V in H. tauto.
    + intros H. eexists. split; [now left|]. cbn. apply V. destruct H as [H|[H|(s & H)]]; auto.
      exfalso. assert (X : In (slices_of s) (rules_of rules name)) by (apply rules_of_in; eauto). now rewrite E in X.
  - rewrite I1 by discriminate. assert (X : In x (rules_of rules name)) by (rewrite E; now left).
    apply rules_of_in in X as (s & X & _). split; [eauto|]. intros _. eexists. split; [now left|]. reflexivity.
Qed.
Print Assumptions C45_visible.
Example C45_visible_nonvacuous :
  getVariableInfo (fun r n => text_eqb r (codes "a.*b")) (filter_of [RRegex (codes "c"); RVar (codes "x") []]) (codes "z") 1
    = [(false, [(-1, -1)])]
  /\ getVariableInfo (fun r n => text_eqb r (codes "a.*b")) (filter_of sample_rules) (codes "z") 1
    = [(true, [(-1, -1)])].
Proof. split; vm_compute; reflexivity. Qed.

(** A derivative is shown exactly when a rule names it, or an expression
    matches der(name); but never because there is no filter (see below). *)
Theorem C45_derivative_partial : forall rmatch rules name rank,
  (exists i, In i (getVariableDerInfo rmatch (filter_of rules) name rank) /\ fst i = true) <->
  ((exists r, In (RRegex r) rules /\ rmatch r (codes "der(" ++ name ++ codes ")") = true) \/ In (RDer name) rules).
Proof.
  intros rmatch rules name rank. destruct (filter_of_spec rules) as (_ & D & _).
  unfold getVariableDerInfo. split.
  - intros (i & [<-|[]] & H). cbn [fst] in H. apply orb_true_iff in H as [H|H].
    + left. now apply matches_spec.
    + right. apply D. destruct (tfind name _); [eauto|discriminate].
  - intros H. eexists. split; [now left|]. cbn [fst]. apply orb_true_iff. destruct H as [H|H].
    + left. now apply matches_spec.
    + right. apply D in H as [x ->]. reflexivity.
Qed.
Print Assumptions C45_derivative_partial.
Example C45_derivative_nonvacuous :
  getVariableDerInfo (fun _ _ => false) (filter_of sample_rules) (codes "y") 2 = [(true, [(-1, -1); (-1, -1)])]
  /\ getVariableDerInfo (fun _ _ => false) (filter_of sample_rules) (codes "x") 1 = [(false, [(-1, -1)])].
Proof. split; vm_compute; reflexivity. Qed.
(** Without a filter every variable is shown, and no derivative. *)
Theorem C45_derivative_refuted : forall rmatch name rank,
  (exists i, In i (getVariableInfo rmatch (filter_of []) name rank) /\ fst i = true)
  /\ ~ (exists i, In i (getVariableDerInfo rmatch (filter_of []) name rank) /\ fst i = true).
Proof.
  intros rmatch name rank. split; [apply C45_visible; auto|]. rewrite C45_derivative_partial.
  intros [(r & [] & _)|[]].
Qed.
Print Assumptions C45_derivative_refuted.

(** The shown elements of an array: those of the listed slices, or all of them
    if no slice is listed and the variable is shown. Partial: every listed
    slice lies within the array. *)
Theorem C45_elements_partial : forall rmatch rules name shape,
  Forall (fun d => 0 < d) shape -> (forall s, In (RVar name s) rules -> slice_within (slices_of s) shape) ->
  exists b, getPrintableIndices shape (getVariableInfo rmatch (filter_of rules) name (List.length shape)) = Ok b
    /\ forall p, in_boxes p b <->
         in_shape p shape
         /\ ((exists s, In (RVar name s) rules /\ in_slice p (slices_of s))
             \/ ((~ exists s, In (RVar name s) rules)
                 /\ (rules = [] \/ exists r, In (RRegex r) rules /\ rmatch r name = true))).
Proof.
  intros rmatch rules name shape P W. destruct (info_spec rmatch rules name (List.length shape)) as [I1 I2].
  unfold getPrintableIndices. destruct (rules_of rules name) as [|x xs] eqn:E.
  - assert (NO : ~ exists s, In (RVar name s) rules).
    { intros (s & H). assert (X : In (slices_of s) (rules_of rules name)) by (apply rules_of_in; eauto). now rewrite E in X. }
    destruct (I2 eq_refl) as (v & -> & V). destruct v.
    + rewrite <- (extended_nil (List.length shape)).
      destruct (printable_fold shape [[]] [] P) as (b & B1 & B2); [repeat constructor|]. exists b. split; [exact B1|].
      intros p. rewrite B2. split.
      * intros [(c & [] & _)|(H & _)]. split; auto. right. split; auto. now apply V.
      * intros (H & _). right. split; auto. exists []. split; [now left|]. destruct p; exact I.
    + exists []. split; [reflexivity|]. intros p. split; [intros (c & [] & _)|].
      intros (_ & [(s & H & _)|(_ & H)]); [exfalso; eauto|]. apply V in H. discriminate.
  - rewrite I1 by discriminate.
    assert (WF : Forall (fun rs => slice_within rs shape) (x :: xs)).
    { apply Forall_forall. intros rs H. rewrite <- E in H. apply rules_of_in in H as (s & H & ->). auto. }
    destruct (printable_fold shape (x :: xs) [] P WF) as (b & B1 & B2). exists b. split; [exact B1|].
    intros p. rewrite B2. split.
    + intros [(c & [] & _)|(H & rs & J & K)]. split; auto. left. rewrite <- E in J. apply rules_of_in in J as (s & J & ->). eauto.
    + intros (H & [(s & J & K)|(NO & _)]).
      * right. split; auto. exists (slices_of s). split; auto. rewrite <- E. apply rules_of_in. eauto.
      * exfalso. apply NO. assert (X : In x (rules_of rules name)) by (rewrite E; now left).
        apply rules_of_in in X as (s & X & _). eauto.
Qed.
Print Assumptions C45_elements_partial.
(** x[2:3] and x[$:$,4:$] of a 5x5 array. *)
Example C45_elements_nonvacuous :
  let rules := [RVar (codes "x") [(Some [2], Some [3])]; RVar (codes "x") [(None, None); (Some [4], None)]] in
  (forall s, In (RVar (codes "x") s) rules -> slice_within (slices_of s) [5; 5])
  /\ exists b, getPrintableIndices [5; 5] (getVariableInfo (fun _ _ => false) (filter_of rules) (codes "x") 2) = Ok b
     /\ in_boxes [1; 0] b /\ in_boxes [4; 3] b /\ ~ in_boxes [3; 2] b.
Proof.
  intros rules. assert (W : forall s, In (RVar (codes "x") s) rules -> slice_within (slices_of s) [5; 5]).
  { intros s [H|[H|[]]]; inversion H; subst; unfold decimal; cbn; unfold decimal; cbn; lia. }
  split; [exact W|]. destruct (C45_elements_partial (fun _ _ => false) rules (codes "x") [5; 5]) as (b & B1 & B2); auto.
  { repeat constructor. }
  exists b. split; [exact B1|]. rewrite !B2. clear B1 B2. split; [|split].
  - split; [repeat constructor; lia|]. left. exists [(Some [2], Some [3])]. split; [now left|]. unfold decimal; cbn. unfold decimal; cbn. lia.
  - split; [repeat constructor; lia|]. left. exists [(None, None); (Some [4], None)]. split; [right; now left|]. cbn. unfold decimal; cbn. lia.
  - intros (_ & [(s & [H|[H|[]]] & K)|(NO & _)]).
    + inversion H; subst. cbn in K. unfold decimal in K; cbn in K. lia.
    + inversion H; subst. cbn in K. unfold decimal in K; cbn in K. lia.
    + apply NO. eexists. now left.
Qed.
(** A scalar is printed exactly when it is shown. *)
Theorem C45_scalar : forall rmatch rules name,
  printable_scalar (getVariableInfo rmatch (filter_of rules) name 0) = true <->
  (rules = [] \/ (exists r, In (RRegex r) rules /\ rmatch r name = true) \/ exists s, In (RVar name s) rules).
Proof. intros. unfold printable_scalar. rewrite existsb_exists. apply C45_visible. Qed.
Print Assumptions C45_scalar.
Example C45_scalar_nonvacuous :
  printable_scalar (getVariableInfo (fun _ _ => false) (filter_of sample_rules) (codes "x") 0) = true
  /\ printable_scalar (getVariableInfo (fun _ _ => false) (filter_of sample_rules) (codes "w") 0) = false.
Proof. split; vm_compute; reflexivity. Qed.

(** The slices are not clipped to the array: x[1:10] of a 3-element array asks
    for the elements up to the tenth, and x[0:2] for the element before the
    first. An empty slice, x[3:2], is an invalid range. *)
Theorem C45_clip_refuted :
  (exists b, getPrintableIndices [3] (getVariableInfo (fun _ _ => false) (filter_of [RVar (codes "x") [(Some [1], Some [1; 0])]]) (codes "x") 1) = Ok b
     /\ in_boxes [7] b /\ ~ in_shape [7] [3])
  /\ (exists b, getPrintableIndices [3] (getVariableInfo (fun _ _ => false) (filter_of [RVar (codes "x") [(Some [0], Some [2])]]) (codes "x") 1) = Ok b
     /\ in_boxes [-1] b /\ ~ in_shape [-1] [3])
  /\ getPrintableIndices [3] (getVariableInfo (fun _ _ => false) (filter_of [RVar (codes "x") [(Some [3], Some [2])]]) (codes "x") 1) = Bad.
Proof.
  split; [|split].
  - eexists. split; [vm_compute; reflexivity|]. split.
    + eexists. split; [now left|]. repeat constructor; cbn; lia.
    + intros H. inversion H; subst. lia.
  - eexists. split; [vm_compute; reflexivity|]. split.
    + eexists. split; [now left|]. repeat constructor; cbn; lia.
    + intros H. inversion H; subst. lia.
  - vm_compute. reflexivity.
Qed.
Print Assumptions C45_clip_refuted.
