(** The parser reads every expression of the supported grammar, with its tree. *)
From Coq Require Import ZArith QArith List Bool String Lia.
From Verif Require Import Result LexerModel ParserModel ParserSpec ParserProofs.
Import ListNotations.
Local Open Scope nat_scope.
Local Open Scope list_scope.

(** How loosely a token binds what comes before it. *)
Definition level (t : tk) : nat :=
  match t with
  | KLPar | KLSq | KDot => 0
  | KPow | KPowEW => 1
  | KMul | KMulEW | KDiv | KDivEW => 2
  | KPlus | KPlusEW | KMinus | KMinusEW => 3
  | KGe | KGt | KLe | KLt | KEq | KNe => 4
  | KAnd => 5
  | KOr => 6
  | KColon => 7
  | _ => 8
  end.
Definition stop (k : nat) (rest : list tk) : Prop :=
  match rest with [] => True | t :: _ => k <= level t end.
Lemma stop_le : forall k k' rest, k' <= k -> stop k rest -> stop k' rest.
Proof. intros k k' rest Le H. destruct rest as [|t r]; cbn in *; auto. lia. Qed.
Lemma ends_stop : forall rest, ends_expression rest <-> stop 8 rest.
Proof.
  intros rest. destruct rest as [|t r]; cbn; [tauto|]. split.
  - intros H. destruct t; cbn; try lia; exfalso; apply H; cbn; tauto.
  - intros H D. destruct t; cbn in H; try lia; cbn in D; intuition discriminate.
Qed.
Lemma rel_level : forall t k, In (t, k) rel_ops -> rel_kind t = Some k /\ level t = 4.
Proof. intros t k H. cbn in H. repeat (destruct H as [H|H]; [injection H as <- <-; auto|]). destruct H. Qed.
Lemma add_level : forall t k, In (t, k) add_ops -> add_kind t = Some k /\ level t = 3.
Proof. intros t k H. cbn in H. repeat (destruct H as [H|H]; [injection H as <- <-; auto|]). destruct H. Qed.
Lemma mul_level : forall t k, In (t, k) mul_ops -> mul_kind t = Some k /\ level t = 2.
Proof. intros t k H. cbn in H. repeat (destruct H as [H|H]; [injection H as <- <-; auto|]). destruct H. Qed.
Lemma pow_level : forall t k, In (t, k) pow_ops -> pow_kind t = Some k /\ level t = 1.
Proof. intros t k H. cbn in H. repeat (destruct H as [H|H]; [injection H as <- <-; auto|]). destruct H. Qed.

Lemma op_loop_stop : forall operand kind n e rest,
  match rest with [] => True | t :: _ => kind t = None end -> op_loop operand kind n e rest = ret e rest.
Proof.
  intros operand kind n e rest H. destruct n, rest as [|t r]; cbn; auto; now rewrite H.
Qed.
Lemma op_loop_step : forall operand kind n e t ts k, 0 < n -> kind t = Some k ->
  op_loop operand kind n e (t :: ts) =
  ptry (operand ts) (fun e' ts2 => op_loop operand kind (Nat.pred n) (XOp k [e; e']) ts2).
Proof. intros operand kind n e t ts k H K. destruct n; [lia|]. cbn. now rewrite K. Qed.
Lemma stop_pow : forall rest, stop 2 rest -> match rest with [] => True | t :: _ => pow_kind t = None end.
Proof. intros [|t r] H; auto. destruct t; auto; cbn in H; lia. Qed.
Lemma stop_mul : forall rest, stop 3 rest -> match rest with [] => True | t :: _ => mul_kind t = None end.
Proof. intros [|t r] H; auto. destruct t; auto; cbn in H; lia. Qed.
Lemma stop_add : forall rest, stop 4 rest -> match rest with [] => True | t :: _ => add_kind t = None end.
Proof. intros [|t r] H; auto. destruct t; auto; cbn in H; lia. Qed.
Lemma stop_and : forall rest, stop 6 rest -> match rest with t :: _ => is_and t = false | [] => True end.
Proof. intros [|t r] H; auto. destruct t; auto; cbn in H; lia. Qed.
Lemma stop_or : forall rest, stop 7 rest -> match rest with t :: _ => is_or t = false | [] => True end.
Proof. intros [|t r] H; auto. destruct t; auto; cbn in H; lia. Qed.

Lemma sep_loop_complete : forall A (item : list tk -> pres A) (I : list tk -> A -> Prop) sep s (ok : list tk -> Prop) c,
  (forall ts x rest, I ts x -> ok rest -> List.length (ts ++ rest) < c -> item (ts ++ rest) = ret x rest) ->
  (forall r, ok (s :: r)) -> sep s = true ->
  forall ts l, separated I s ts l -> forall n acc rest, ok rest ->
  match rest with t :: _ => sep t = false | [] => True end ->
  List.length (ts ++ rest) < c -> List.length (ts ++ rest) < n ->
  sep_loop item sep n acc (ts ++ rest) = ret (acc ++ l) rest.
Proof.
  intros A item I sep s ok c HI Hs Es ts l D.
  induction D as [ts x D|ts x ts' l D Ds IH]; intros n acc rest Ok Stop Hc Hn.
  - destruct n; [lia|]. cbn [sep_loop]. rewrite (HI _ _ _ D Ok Hc). cbn.
    destruct rest as [|t r]; auto. now rewrite Stop.
  - destruct n; [lia|]. cbn [sep_loop]. rewrite <- app_assoc in *. cbn [app] in *.
    rewrite (HI _ _ _ D (Hs _) Hc). cbn. rewrite Es.
    rewrite app_length in Hc, Hn. cbn in Hc, Hn.
    rewrite IH; auto; try lia. now rewrite <- app_assoc.
Qed.

(** The tokens that may come first. *)
Definition first (t : tk) : nat :=
  match t with
  | KInt _ | KReal _ | KStr _ | KTrue | KFalse | KIdent _ | KLPar | KLCurly | KDer => 0
  | KPlus | KMinus => 1
  | KNot => 2
  | KIf => 3
  | _ => 4
  end.
Definition starts (k : nat) (ts : list tk) : Prop :=
  match ts with [] => False | t :: _ => first t <= k end.
Lemma starts_app : forall k ts rest, starts k ts -> starts k (ts ++ rest).
Proof. intros k ts rest H. destruct ts; [destruct H|exact H]. Qed.
Lemma starts_le : forall k k' ts, k <= k' -> starts k ts -> starts k' ts.
Proof. intros k k' ts Le H. destruct ts; [destruct H|cbn in *; lia]. Qed.

Section Starts.
  Variable E : list tk -> expr -> Prop.
  Lemma b_separated : forall A (I : list tk -> A -> Prop) s k, (forall ts x, I ts x -> starts k ts) ->
    forall ts l, separated I s ts l -> starts k ts.
  Proof. intros A I s k H ts l D. destruct D; eauto. apply starts_app. eauto. Qed.
  Lemma b_ident : forall ts x, g_reference false E ts x -> exists s u, ts = KIdent s :: u.
  Proof.
    intros ts x D. destruct D; [|discriminate].
    destruct H as [ts x D|ts x ts' l D Ds]; destruct D; cbn; eauto.
  Qed.
  Lemma b_primary : forall ts x, g_primary false false E ts x -> starts 0 ts.
  Proof.
    intros ts x D.
    destruct D as [ | | | | |ts x D|ts x D|ts x D|ts x D|ts x ts' l D _|ts x ts' l Ab D _];
      try discriminate; try (cbn; lia).
    - destruct (b_ident _ _ D) as (s & u & ->). cbn. lia.
    - destruct D as [ts f ts' l D _|]; [|cbn; lia]. apply starts_app.
      destruct (b_ident _ _ D) as (s & u & ->). cbn. lia.
    - destruct D; cbn; lia.
    - destruct D; cbn; lia.
    - apply starts_app. destruct D; cbn; lia.
  Qed.
  Lemma b_factor : forall ts x, g_factor false false E ts x -> starts 0 ts.
  Proof.
    intros ts x D. induction D; try discriminate; try apply starts_app; eapply b_primary; eauto.
  Qed.
  Lemma b_term : forall ts x, g_term false false E ts x -> starts 0 ts.
  Proof. intros ts x D. induction D; [eapply b_factor; eauto|]. now apply starts_app. Qed.
  Lemma b_arith : forall ts x, g_arith false false E ts x -> starts 1 ts.
  Proof.
    intros ts x D. induction D; try discriminate; try (cbn; lia).
    - eapply starts_le; [|eapply b_term; eauto]. lia.
    - now apply starts_app.
  Qed.
  Lemma b_relation : forall ts x, g_relation false false E ts x -> starts 1 ts.
  Proof. intros ts x D. induction D; try apply starts_app; eapply b_arith; eauto. Qed.
  Lemma b_lfactor : forall ts x, g_lfactor false false E ts x -> starts 2 ts.
  Proof.
    intros ts x D. induction D; [|cbn; lia]. eapply starts_le; [|eapply b_relation; eauto]. lia.
  Qed.
  Lemma b_lterm : forall ts x, g_lterm false false E ts x -> starts 2 ts.
  Proof.
    intros ts x D. induction D; [eapply b_lfactor; eauto|]. eapply b_separated; [|eauto]. apply b_lfactor.
  Qed.
  Lemma b_lexpr : forall ts x, g_lexpr false false E ts x -> starts 2 ts.
  Proof.
    intros ts x D. induction D; [eapply b_lterm; eauto|]. eapply b_separated; [|eauto]. apply b_lterm.
  Qed.
  Lemma b_simple : forall ts x, g_simple false false E ts x -> starts 2 ts.
  Proof. intros ts x D. induction D; try apply starts_app; eapply b_lexpr; eauto. Qed.
  Lemma b_expression : forall ts x, g_expression false false E ts x -> starts 3 ts.
  Proof.
    intros ts x D. induction D; [|cbn; lia]. eapply starts_le; [|eapply b_simple; eauto]. lia.
  Qed.
End Starts.

Definition complete {A} (p : list tk -> pres A) (G : list tk -> A -> Prop) (ok : list tk -> Prop) (c : nat) : Prop :=
  forall ts x rest, G ts x -> ok rest -> List.length (ts ++ rest) < c -> p (ts ++ rest) = ret x rest.

(** Moves the tokens left to the right, in the goal and in the bounds. *)
Ltac assoc := repeat (rewrite <- app_assoc in *; cbn [app] in *).
Ltac len := repeat (rewrite app_length in *; cbn [List.length] in *); lia.

Section Complete.
  Variable P : list tk -> pres expr.
  Variables n b : nat.
  Variable E : list tk -> expr -> Prop.
  Hypothesis CP : complete P E (stop 8) b.
  Hypothesis BE : forall ts e, E ts e -> starts 3 ts.
  Hypothesis NE : forall ts e, E ts e -> starts_named ts = false.
  Hypothesis Hn : b < n.

  Lemma c_subscript : complete (p_subscript P) (g_subscript E) (stop 8) b.
  Proof.
    intros ts x rest D Ok Hb. destruct D as [|ts e D]; [reflexivity|].
    pose proof (CP _ _ _ D Ok Hb) as Q. apply BE in D.
    unfold p_subscript. destruct ts as [|t ts]; [destruct D|]. cbn [app] in *.
    destruct t; try (rewrite Q; reflexivity). cbn in D. lia.
  Qed.
  Lemma c_subscripts : complete (p_subscripts P n) (g_subscripts E) (fun _ => True) (S b).
  Proof.
    intros ts x rest D _ Hb. destruct D as [ts l D]. cbn [app]. unfold p_subscripts. assoc.
    rewrite (sep_loop_complete _ _ _ _ KComma _ _ c_subscript) with (l := l); auto.
    - intros. cbn. lia.
    - cbn. lia.
    - cbn in Hb. lia.
    - cbn in Hb. lia.
  Qed.
  Definition ok_index (rest : list tk) : Prop := stop 8 rest /\ match rest with KIn :: _ => False | _ => True end.
  Lemma c_forIndex : complete (p_forIndex P) (g_index E) ok_index b.
  Proof.
    intros ts x rest D [Ok Ok'] Hb. destruct D as [s|s ts e D].
    - cbn. destruct rest as [|t r]; auto. destruct t; auto. destruct Ok'.
    - cbn [app p_forIndex] in *. rewrite (CP _ _ _ D Ok); [reflexivity|]. cbn in Hb. lia.
  Qed.
  Lemma c_forIndices : forall ts ix rest, g_indices E ts ix -> ok_index rest -> no_comma rest ->
    List.length (ts ++ rest) < b -> p_forIndices P n (ts ++ rest) = ret ix rest.
  Proof.
    intros ts ix rest D Ok NC Hb. unfold p_forIndices.
    rewrite (sep_loop_complete _ _ _ _ KComma _ _ c_forIndex) with (l := ix); auto; try lia.
    - intros r. split; cbn; auto.
    - destruct rest as [|t r]; auto. destruct t; auto. destruct NC.
  Qed.
  Lemma c_named : complete (p_named P) (g_named E) (stop 8) b.
  Proof.
    intros ts x rest D Ok Hb. destruct D as [s ts e D]. cbn [app p_named] in *.
    rewrite (CP _ _ _ D Ok); [reflexivity|]. cbn in Hb. lia.
  Qed.
  Lemma c_nameds : forall ts l rest, separated (g_named E) KComma ts l -> stop 8 rest -> no_comma rest ->
    List.length (ts ++ rest) < b -> p_nameds P n (ts ++ rest) = ret l rest.
  Proof.
    intros ts l rest D Ok NC Hb. unfold p_nameds.
    rewrite (sep_loop_complete _ _ _ _ KComma _ _ c_named) with (l := l); auto; try lia.
    - intros r. cbn. lia.
    - destruct rest as [|t r]; auto. destruct t; auto. destruct NC.
  Qed.
  Lemma named_starts : forall ts l rest, separated (g_named E) KComma ts l -> starts_named (ts ++ rest) = true.
  Proof. intros ts l rest D. destruct D as [ts x D|ts x ts' l D _]; destruct D; reflexivity. Qed.
  Lemma expr_starts : forall ts e t rest, E ts e -> t <> KAssign -> starts_named (ts ++ t :: rest) = false.
  Proof.
    intros ts e t rest D Nt. pose proof (NE _ _ D) as N. apply BE in D.
    destruct ts as [|a [|a' ts]]; [destruct D| |exact N].
    cbn. destruct a; auto. destruct t; auto. congruence.
  Qed.
  Lemma c_args : forall ts l, g_rest E ts l -> forall m r, List.length (ts ++ KRPar :: r) < b ->
    List.length (ts ++ KRPar :: r) < m -> p_argsNonFirst P n m (ts ++ KRPar :: r) = ret l (KRPar :: r).
  Proof.
    intros ts l D. induction D as [ts l D|ts e D|ts e ts' l D Ds IH]; intros m r Hb Hm;
      (destruct m as [|m]; [lia|]); rewrite args_step.
    - rewrite (named_starts _ _ _ D). apply c_nameds; cbn; auto.
    - rewrite (expr_starts _ _ _ _ D) by discriminate. rewrite (CP _ _ _ D); [|cbn; lia|lia]. cbn. reflexivity.
    - assoc. rewrite (expr_starts _ _ _ _ D) by discriminate.
      rewrite (CP _ _ _ D); [|cbn; lia|lia]. rewrite ptry_ret, args_more_S.
      rewrite IH; [|len|len]. rewrite ptry_ret.
      destruct m; [len|]. rewrite args_more_done by exact I. reflexivity.
  Qed.
  Lemma c_arguments : forall ts l, g_arguments E ts l -> forall r, List.length (ts ++ KRPar :: r) < b ->
    p_functionArguments P n (ts ++ KRPar :: r) = ret l (KRPar :: r).
  Proof.
    intros ts l D r Hb. unfold p_functionArguments. destruct D as [ts l D|ts e ts' ix D Di].
    - destruct D as [ts l D|ts e D|ts e ts' l D Ds].
      + rewrite (named_starts _ _ _ D). apply c_nameds; cbn; auto.
      + rewrite (expr_starts _ _ _ _ D) by discriminate. rewrite (CP _ _ _ D); [|cbn; lia|lia]. reflexivity.
      + assoc. rewrite (expr_starts _ _ _ _ D) by discriminate.
        rewrite (CP _ _ _ D); [|cbn; lia|lia]. rewrite ptry_ret. rewrite (c_args _ _ Ds); [reflexivity|len|len].
    - assoc. rewrite (expr_starts _ _ _ _ D) by discriminate.
      rewrite (CP _ _ _ D); [|cbn; lia|lia]. rewrite ptry_ret.
      rewrite (c_forIndices _ _ _ Di); [reflexivity|split; cbn; auto|exact I|len].
  Qed.
  Lemma arguments_first : forall ts l rest, g_arguments E ts l -> starts 3 (ts ++ rest).
  Proof.
    assert (N : forall ts l, separated (g_named E) KComma ts l -> starts 3 ts).
    { intros ts l D. eapply b_separated; [|eauto]. intros ? ? D'. destruct D'. cbn. lia. }
    intros ts l rest D. apply starts_app. destruct D as [ts l D|ts e ts' ix D Di].
    - destruct D; eauto. apply starts_app. eauto.
    - apply starts_app. eauto.
  Qed.
  Lemma c_call : complete (p_callArgs P n) (g_call E) (fun _ => True) (S b).
  Proof.
    intros ts x rest D _ Hb. destruct D as [|ts l D]; [reflexivity|]. cbn [app]. assoc.
    pose proof (arguments_first _ _ (KRPar :: rest) D) as F.
    pose proof (c_arguments _ _ D rest) as Q. cbn [List.length] in Hb.
    unfold p_callArgs. destruct (ts ++ KRPar :: rest) as [|t u] eqn:Eu; [destruct F|].
    rewrite Q by lia. destruct t; auto. cbn in F. lia.
  Qed.
  Lemma c_array : forall ts e, g_array E ts e -> forall rest, List.length (ts ++ rest) < S b ->
    p_primary P n (ts ++ rest) = p_indexed P n e rest.
  Proof.
    intros ts e D rest Hb. destruct D as [ts l D|ts e ts' ix D Di].
    - cbn [app p_primary]. assoc. unfold p_arrayArguments.
      destruct D as [ts x D|ts x ts' l D Ds].
      + rewrite (CP _ _ _ D); [reflexivity|cbn; lia|cbn in Hb; len].
      + assoc. rewrite (CP _ _ _ D); [|cbn; lia|cbn in Hb; len]. rewrite ptry_ret.
        rewrite (sep_loop_complete _ _ _ _ KComma _ _ CP) with (l := l); auto; try (cbn; auto; fail).
        * cbn in Hb. len.
        * cbn in Hb. len.
    - cbn [app p_primary]. assoc. unfold p_arrayArguments.
      rewrite (CP _ _ _ D); [|cbn; lia|cbn in Hb; len]. rewrite ptry_ret.
      rewrite (c_forIndices _ _ _ Di); [|split; cbn; auto|exact I|cbn in Hb; len].
      rewrite !ptry_ret. cbn [snd fst].
      destruct ix as [|i ix]; [exfalso; now apply separated_nonnil in Di|reflexivity].
  Qed.
  Lemma c_outputs : forall ts l, g_outputs false false E ts l -> forall m acc r,
    List.length (ts ++ KRPar :: r) < b -> List.length (ts ++ KRPar :: r) < m ->
    p_outputs P m acc (ts ++ KRPar :: r) = ret (acc ++ l) (KRPar :: r).
  Proof.
    assert (St : forall ts e m acc rest, E ts e -> p_outputs P (S m) acc (ts ++ rest) =
      ptry (P (ts ++ rest)) (fun e r =>
        p_outputs P m (acc ++ [e]) (match r with KComma :: r' => r' | _ => r end))).
    { intros ts e m acc rest D. apply BE in D. destruct ts as [|t ts]; [destruct D|]. cbn in D.
      cbn [app p_outputs]. destruct t; auto; cbn in D; lia. }
    intros ts l D. induction D as [ts e D|Ab|ts e ts' l D Ds IH|ts' l Ds IH|Ab|ts e ts' l Ab D Ds IH];
      try discriminate; intros m acc r Hb Hm; (destruct m as [|m]; [lia|]).
    - rewrite (St _ _ _ _ _ D). rewrite (CP _ _ _ D); [|cbn; lia|lia]. rewrite ptry_ret.
      destruct m; [|reflexivity]. apply BE in D. destruct ts; [destruct D|len].
    - assoc. rewrite (St _ _ _ _ _ D). rewrite (CP _ _ _ D); [|cbn; lia|lia]. rewrite ptry_ret.
      rewrite IH; [now rewrite <- app_assoc|len|len].
    - cbn [app p_outputs]. rewrite IH; [now rewrite <- app_assoc|cbn in *; lia|cbn in *; lia].
  Qed.
  Lemma c_parens : forall ts e, g_parens false false E ts e -> forall rest, List.length (ts ++ rest) < S b ->
    p_primary P n (ts ++ rest) = p_indexed P n e rest.
  Proof.
    intros ts e D rest Hb. destruct D as [|ts e D|ts l D Hl].
    - cbn [app p_primary]. destruct n as [|n']; [lia|]. reflexivity.
    - cbn [app p_primary]. assoc. rewrite (c_outputs _ _ D); [reflexivity|cbn in Hb; len|cbn in Hb; len].
    - cbn [app p_primary]. assoc. rewrite (c_outputs _ _ D); [|cbn in Hb; len|cbn in Hb; len].
      rewrite ptry_ret. cbn [app]. destruct l as [|e [|e' l]]; try reflexivity. now destruct Hl.
  Qed.
  Definition not_subs (rest : list tk) : Prop := match rest with KLSq :: _ => False | _ => True end.
  Lemma c_entry : complete (p_entry P n) (g_entry E) not_subs (S b).
  Proof.
    intros ts x rest D Ok Hb. destruct D as [s|s ts l D].
    - cbn. destruct rest as [|t r]; auto. destruct t; auto. destruct Ok.
    - cbn [app p_entry] in *. pose proof (c_subscripts _ _ rest D I) as Q. destruct D as [ts l D].
      cbn [app] in *. rewrite Q; [reflexivity|]. cbn in *. lia.
  Qed.
  Lemma c_reference : forall ts e, g_reference false E ts e -> forall rest, not_subs rest ->
    match rest with KDot :: _ => False | _ => True end -> List.length (ts ++ rest) < S b ->
    p_reference P n (ts ++ rest) = ret e rest.
  Proof.
    intros ts e D rest Ok Ok' Hb. destruct (b_ident _ _ _ D) as (s & u & Eq).
    destruct D as [ts l D|]; [|discriminate].
    unfold p_reference. rewrite Eq in *. cbn [app] in *.
    change (KIdent s :: u ++ rest) with ((KIdent s :: u) ++ rest).
    rewrite (sep_loop_complete _ _ _ _ KDot _ _ c_entry) with (l := l); auto; cbn in *; try lia.
    destruct rest as [|t r]; auto. destruct t; auto. destruct Ok'.
  Qed.
  Lemma indexed_none : forall e rest, not_subs rest -> p_indexed P n e rest = ret e rest.
  Proof. intros e rest H. unfold p_indexed. destruct rest as [|t r]; auto. destruct t; auto. destruct H. Qed.
  Lemma indexed_some : forall e ts l rest, g_subscripts E ts l -> List.length (ts ++ rest) < S b ->
    p_indexed P n e (ts ++ rest) = ret (XIndex e l) rest.
  Proof.
    intros e ts l rest D Hb. pose proof (c_subscripts _ _ rest D I Hb) as Q. destruct D as [ts l D].
    cbn [app p_indexed] in *. now rewrite Q.
  Qed.
  Lemma stop_subs : forall rest, stop 1 rest -> not_subs rest.
  Proof. intros [|t r] H; cbn; auto. destruct t; auto. cbn in H. lia. Qed.
  Lemma c_primary : complete (p_primary P n) (g_primary false false E) (stop 1) (S b).
  Proof.
    intros ts x rest D Ok Hb. pose proof (stop_subs _ Ok) as Ns.
    destruct D as [z|q|s| | |ts e D|ts e D|ts e D|ts e D|ts e ts' l D Dl|ts e ts' l Ab D Dl];
      try discriminate; try reflexivity.
    - destruct (b_ident _ _ _ D) as (s & u & Eq).
      assert (Q : p_reference P n (ts ++ rest) = ret e rest).
      { apply c_reference; auto. destruct rest as [|t r]; auto. destruct t; auto. cbn in Ok. lia. }
      rewrite Eq in *. cbn [app p_primary] in *. rewrite Q, ptry_ret.
      destruct rest as [|t r]; auto. destruct t; auto. cbn in Ok. lia.
    - destruct D as [ts f ts' l D Dl|ts l D].
      + destruct (b_ident _ _ _ D) as (s & u & Eq).
        assert (exists v, ts' = KLPar :: v) as (v & Ev) by (destruct Dl; eauto).
        assert (Q : p_reference P n (ts ++ ts' ++ rest) = ret f (ts' ++ rest)).
        { apply c_reference; auto; try (rewrite Ev; exact I). now rewrite app_assoc. }
        assert (Q' : p_callArgs P n (ts' ++ rest) = ret l rest).
        { apply c_call; auto. len. }
        rewrite <- app_assoc. rewrite Eq in *. cbn [app p_primary] in *. rewrite Q, ptry_ret.
        rewrite Ev in *. cbn [app] in *. rewrite Q', ptry_ret. now apply indexed_none.
      + cbn [app p_primary]. cbn [app] in Hb. rewrite (c_call _ _ _ D I); [|cbn in Hb; lia].
        rewrite ptry_ret. now apply indexed_none.
    - rewrite (c_array _ _ D) by auto. now apply indexed_none.
    - rewrite (c_parens _ _ D) by auto. now apply indexed_none.
    - rewrite <- app_assoc in *. rewrite (c_parens _ _ D) by auto. apply indexed_some; auto. len.
  Qed.
  Lemma c_factor : complete (p_factor P n) (g_factor false false E) (stop 2) (S b).
  Proof.
    intros ts x rest D Ok Hb. pose proof (stop_pow _ Ok) as Np. unfold p_factor.
    destruct D as [ts e D|a x t k c y D Hk D'|]; [| |discriminate].
    - rewrite (c_primary _ _ _ D); auto; [|eapply stop_le; [|eauto]; lia].
      rewrite ptry_ret. now apply op_loop_stop.
    - destruct (pow_level _ _ Hk) as [K L]. assoc.
      rewrite (c_primary _ _ _ D); [|cbn; lia|auto]. rewrite ptry_ret.
      rewrite (op_loop_step _ _ _ _ _ _ k); [|lia|auto].
      rewrite (c_primary _ _ _ D'); [|eapply stop_le; [|eauto]; lia|len].
      rewrite ptry_ret. now apply op_loop_stop.
  Qed.
  Lemma c_term_loop : forall ts e, g_term false false E ts e -> forall rest, stop 2 rest ->
    List.length (ts ++ rest) < S b ->
    exists m, n <= m + List.length ts /\ p_term P n (ts ++ rest) = op_loop (p_factor P n) mul_kind m e rest.
  Proof.
    intros ts e D. induction D as [ts e D|a x t k c y D IH Hk D']; intros rest Ok Hb.
    - exists n. split; [lia|]. unfold p_term. rewrite (c_factor _ _ _ D); auto.
    - destruct (mul_level _ _ Hk) as [K L]. assoc.
      destruct (IH (t :: c ++ rest)) as (m & Hm & Q); [cbn; lia|auto|].
      rewrite Q. destruct m as [|m]; [len|].
      exists m. split; [len|]. cbn [op_loop]. rewrite K. rewrite (c_factor _ _ _ D'); auto. len.
  Qed.
  Lemma c_term : complete (p_term P n) (g_term false false E) (stop 3) (S b).
  Proof.
    intros ts x rest D Ok Hb. destruct (c_term_loop _ _ D rest) as (m & _ & Q); auto.
    - eapply stop_le; [|eauto]; lia.
    - rewrite Q. apply op_loop_stop. now apply stop_mul.
  Qed.
  Lemma c_arith_loop : forall ts e, g_arith false false E ts e -> forall rest, stop 3 rest ->
    List.length (ts ++ rest) < S b ->
    exists m, n <= m + List.length ts /\ p_arith P n (ts ++ rest) = op_loop (p_term P n) add_kind m e rest.
  Proof.
    intros ts e D.
    induction D as [ts e D|ts e D|ts e D|ts e Ab D|ts e Ab D|a x t k c y D IH Hk D']; intros rest Ok Hb;
      try discriminate.
    - exists n. split; [lia|]. pose proof (b_term _ _ _ D) as S0. pose proof (c_term _ _ rest D Ok Hb) as Q.
      unfold p_arith. destruct ts as [|t ts]; [destruct S0|]. cbn in S0. cbn [app] in *.
      destruct t; cbn in S0; try lia; rewrite Q; reflexivity.
    - exists n. split; [lia|]. unfold p_arith. cbn [app] in *. rewrite (c_term _ _ _ D); auto. cbn in Hb. lia.
    - exists n. split; [lia|]. unfold p_arith. cbn [app] in *. rewrite (c_term _ _ _ D); auto. cbn in Hb. lia.
    - destruct (add_level _ _ Hk) as [K L]. assoc.
      destruct (IH (t :: c ++ rest)) as (m & Hm & Q); [cbn; lia|auto|].
      rewrite Q. destruct m as [|m]; [len|].
      exists m. split; [len|]. cbn [op_loop]. rewrite K. rewrite (c_term _ _ _ D'); auto. len.
  Qed.
  Lemma c_arith : complete (p_arith P n) (g_arith false false E) (stop 4) (S b).
  Proof.
    intros ts x rest D Ok Hb. destruct (c_arith_loop _ _ D rest) as (m & _ & Q); auto.
    - eapply stop_le; [|eauto]; lia.
    - rewrite Q. apply op_loop_stop. now apply stop_add.
  Qed.
  Lemma c_relation : complete (p_relation P n) (g_relation false false E) (stop 5) (S b).
  Proof.
    intros ts x rest D Ok Hb. unfold p_relation. destruct D as [ts e D|a x t k c y D Hk D'].
    - rewrite (c_arith _ _ _ D); auto; [|eapply stop_le; [|eauto]; lia]. rewrite ptry_ret.
      destruct rest as [|t r]; auto. destruct t; auto; cbn in Ok; lia.
    - destruct (rel_level _ _ Hk) as [K L]. assoc.
      rewrite (c_arith _ _ _ D); [|cbn; lia|auto]. rewrite ptry_ret, K.
      rewrite (c_arith _ _ _ D'); [reflexivity|eapply stop_le; [|eauto]; lia|len].
  Qed.
  Lemma c_lfactor : complete (p_lfactor P n) (g_lfactor false false E) (stop 5) (S b).
  Proof.
    intros ts x rest D Ok Hb. destruct D as [ts e D|ts e D].
    - pose proof (b_relation _ _ _ D) as S0. pose proof (c_relation _ _ rest D Ok Hb) as Q.
      unfold p_lfactor. destruct ts as [|t ts]; [destruct S0|]. cbn in S0. cbn [app] in *.
      destruct t; auto. cbn in S0. lia.
    - cbn [app p_lfactor] in *. rewrite (c_relation _ _ _ D); auto. cbn in Hb. lia.
  Qed.
  Lemma c_lterm : complete (p_lterm P n) (g_lterm false false E) (stop 6) (S b).
  Proof.
    intros ts x rest D Ok Hb. unfold p_lterm.
    assert (Go : forall l, separated (g_lfactor false false E) KAnd ts l ->
      sep_loop (p_lfactor P n) is_and n [] (ts ++ rest) = ret l rest).
    { intros l Dl. apply (sep_loop_complete _ _ _ _ KAnd _ _ c_lfactor) with (l := l); auto.
      - intros r. cbn. lia.
      - eapply stop_le; [|eauto]; lia.
      - now apply stop_and.
      - lia. }
    destruct D as [ts e D|ts l D Hl].
    - rewrite (Go [e]) by now constructor. reflexivity.
    - rewrite (Go l) by auto. rewrite ptry_ret. destruct l as [|e [|e' l]]; cbn in Hl; try lia. reflexivity.
  Qed.
  Lemma c_lexpr : complete (p_lexpr P n) (g_lexpr false false E) (stop 7) (S b).
  Proof.
    intros ts x rest D Ok Hb. unfold p_lexpr.
    assert (Go : forall l, separated (g_lterm false false E) KOr ts l ->
      sep_loop (p_lterm P n) is_or n [] (ts ++ rest) = ret l rest).
    { intros l Dl. apply (sep_loop_complete _ _ _ _ KOr _ _ c_lterm) with (l := l); auto.
      - intros r. cbn. lia.
      - eapply stop_le; [|eauto]; lia.
      - now apply stop_or.
      - lia. }
    destruct D as [ts e D|ts l D Hl].
    - rewrite (Go [e]) by now constructor. reflexivity.
    - rewrite (Go l) by auto. rewrite ptry_ret. destruct l as [|e [|e' l]]; cbn in Hl; try lia. reflexivity.
  Qed.
  Lemma c_simple : complete (p_simple P n) (g_simple false false E) (stop 8) (S b).
  Proof.
    intros ts x rest D Ok Hb. unfold p_simple.
    assert (Ok7 : stop 7 rest) by (eapply stop_le; [|eauto]; lia).
    destruct D as [ts e D|a x c y D D'|a x c y d z D D' D''].
    - rewrite (c_lexpr _ _ _ D); auto. rewrite ptry_ret.
      destruct rest as [|t r]; auto. destruct t; auto; cbn in Ok; lia.
    - assoc. rewrite (c_lexpr _ _ _ D); [|cbn; lia|auto]. rewrite ptry_ret.
      rewrite (c_lexpr _ _ _ D'); auto; [|len]. rewrite ptry_ret.
      destruct rest as [|t r]; auto. destruct t; auto; cbn in Ok; lia.
    - assoc. rewrite (c_lexpr _ _ _ D); [|cbn; lia|auto]. rewrite ptry_ret.
      rewrite (c_lexpr _ _ _ D'); [|cbn; lia|len]. rewrite ptry_ret.
      rewrite (c_lexpr _ _ _ D''); auto. len.
  Qed.
  Lemma c_expression : complete (p_expression P n) (g_expression false false E) (stop 8) (S b).
  Proof.
    intros ts x rest D Ok Hb. destruct D as [ts e D|a x c y d z D D' D''].
    - pose proof (b_simple _ _ _ D) as S0. pose proof (c_simple _ _ rest D Ok Hb) as Q.
      unfold p_expression. destruct ts as [|t ts]; [destruct S0|]. cbn in S0. cbn [app] in *.
      destruct t; auto. cbn in S0. lia.
    - destruct D'' as [d z D''|]; [|discriminate]. cbn [app p_expression]. assoc.
      rewrite (CP _ _ _ D); [|cbn; lia|cbn in Hb; len]. rewrite ptry_ret.
      rewrite (CP _ _ _ D'); [|cbn; lia|cbn in Hb; len]. rewrite ptry_ret.
      rewrite (CP _ _ _ D''); [reflexivity|auto|cbn in Hb; len].
  Qed.
End Complete.

Lemma named_read : forall n s r, parse_fuel (S n) (KIdent s :: KAssign :: r) = ret (XRef false [(s, [])]) (KAssign :: r).
Proof. reflexivity. Qed.

Theorem parse_complete : forall d n, complete (parse_fuel n) (g_depth false false d) (stop 8) n.
Proof.
  induction d; intros n ts e rest D Ok Hn; [destruct D|].
  destruct n; [lia|]. cbn [parse_fuel g_depth] in *.
  refine (c_expression _ _ n _ (IHd n) _ _ _ _ _ _ D Ok Hn); [| |lia].
  - intros u x Du. destruct d; [destruct Du|]. eapply b_expression; eauto.
  - intros u x Du. destruct u as [|t [|t' u]]; auto; [destruct t; auto|].
    destruct t; auto. destruct t'; auto. exfalso.
    pose proof (IHd (S (S (S (List.length u)))) _ _ [] Du I) as Q. rewrite app_nil_r in Q.
    rewrite named_read in Q. apply ret_inj in Q; [|cbn; lia]. destruct Q as [_ Q]. discriminate.
Qed.

(** * A text that is read and is no expression *)
Definition inert (t : tk) : bool :=
  match t with
  | KIf | KNot | KPlus | KPlusEW | KMinus | KMinusEW => false
  | _ => negb (Nat.ltb 0 (level t) && Nat.ltb (level t) 8)
  end.
Section Inert.
  Variable E : list tk -> expr -> Prop.
  Lemma inert_primary : forall ts e, g_expression true false E ts e -> Forall (fun t => inert t = true) ts ->
    g_primary true false E ts e.
  Proof.
    intros ts e D F.
    assert (Mid : forall a t b, ts = a ++ t :: b -> inert t = true).
    { intros a t b ->. rewrite Forall_app in F. destruct F as [_ F]. now apply Forall_inv in F. }
    assert (Sep : forall A (I : list tk -> A -> Prop) s l, separated I s ts l -> inert s = false ->
      2 <= List.length l -> False).
    { intros A I s l D' H Hl. destruct D' as [ts x _|ts x ts' l _ _]; [cbn in Hl; lia|].
      now rewrite (Mid _ _ _ eq_refl) in H. }
    destruct D as [ts e D|a x b y c z _ _ _]; [|now specialize (Mid [] _ _ eq_refl)].
    destruct D as [ts e D|a x b y _ _|a x b y c z _ _ _]; [|now specialize (Mid a _ _ eq_refl)..].
    destruct D as [ts e D|ts l D Hl]; [|exfalso; exact (Sep _ _ _ _ D eq_refl Hl)].
    destruct D as [ts e D|ts l D Hl]; [|exfalso; exact (Sep _ _ _ _ D eq_refl Hl)].
    destruct D as [ts e D|ts e D]; [|now specialize (Mid [] _ _ eq_refl)].
    destruct D as [ts e D|a x t k b y D Hk D'].
    2: { apply rel_level in Hk. specialize (Mid a t b eq_refl). destruct t; cbn in Mid, Hk; intuition discriminate. }
    destruct D as [ts e D|ts e D|ts e D|ts e _ D|ts e _ D|a x t k b y D Hk D']; [|now specialize (Mid [] _ _ eq_refl)..|].
    2: { apply add_level in Hk. specialize (Mid a t b eq_refl). destruct t; cbn in Mid, Hk; intuition discriminate. }
    destruct D as [ts e D|a x t k b y D Hk D'].
    2: { apply mul_level in Hk. specialize (Mid a t b eq_refl). destruct t; cbn in Mid, Hk; intuition discriminate. }
    destruct D as [ts e D|a x t k b y D Hk D'|]; [exact D| |discriminate].
    apply pow_level in Hk. specialize (Mid a t b eq_refl). destruct t; cbn in Mid, Hk; intuition discriminate.
  Qed.
End Inert.

Definition two_in_parens (a b : text) : list tk := [KLPar; KIdent a; KIdent b; KRPar].
Lemma two_names : forall d a b e, ~ g_depth true false d [KIdent a; KIdent b] e.
Proof.
  intros d a b e D. destruct d; [destruct D|]. apply inert_primary in D; [|repeat constructor].
  inversion D as [ | | | | |ts x R Q|ts x R Q|ts x R Q|ts x R Q|ts x ts' l R S Q|]; subst; try discriminate.
  - inversion R as [ts l S Q|ts l Fl S Q]; subst.
    inversion S as [ts x En Q|ts x ts' l' En S' Q]; subst.
    + inversion En as [|s0 ts0 l0 Su]; subst. inversion Su.
    + destruct ts as [|? [|? [|? ?]]]; discriminate.
  - inversion R as [ts f ts' l R' C Q|]; subst.
    assert (In KLPar [KIdent a; KIdent b]) as X.
    { rewrite <- Q. apply in_or_app. right. destruct C; now left. }
    cbn in X. intuition discriminate.
  - inversion R.
  - inversion R.
  - inversion R; subst; discriminate.
Qed.
Lemma two_in_parens_none : forall d a b e, ~ g_depth true false d (two_in_parens a b) e.
Proof.
  intros d a b e D. destruct d; [destruct D|]. apply inert_primary in D; [|repeat constructor].
  inversion D as [ | | | | |ts x R Q|ts x R Q|ts x R Q|ts x R Q|ts x ts' l R S Q|]; subst; try discriminate.
  - inversion R as [ts l S Q|]; subst.
    inversion S as [ts x En Q|ts x ts' l' En S' Q]; subst; inversion En; subst; discriminate.
  - inversion R as [ts f ts' l R' C Q|]; subst. inversion R' as [ts0 l0 S|]; subst; [|discriminate].
    inversion S as [ts1 x En Q'|ts1 x ts2 l' En S' Q']; subst; inversion En; subst; discriminate.
  - inversion R.
  - assert (Out : forall ts l, ts ++ [KRPar] = [KIdent a; KIdent b; KRPar] -> ~ g_outputs true false (g_depth true false d) ts l).
    { intros ts l Eq O. change [KIdent a; KIdent b; KRPar] with ([KIdent a; KIdent b] ++ [KRPar]) in Eq.
      apply app_inj_tail in Eq. destruct Eq as [-> _].
      inversion O as [ts x O1 Q|Fl Q|ts x ts' l' O1 O2 Q|ts' l' O2 Q|Ab|ts x ts' l' Ab O1 O2 Q]; subst; try discriminate.
      - now apply two_names in O1.
      - destruct ts as [|? [|? [|? ?]]]; discriminate. }
    inversion R as [|ts x O Q|ts l O Hl Q]; subst; eapply Out; eauto.
  - assert (In KLSq (two_in_parens a b)) as X.
    { rewrite <- Q. apply in_or_app. right. destruct S; now left. }
    cbn in X. intuition discriminate.
Qed.
