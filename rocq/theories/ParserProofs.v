(** The parser of expressions against the grammar. *)
From Coq Require Import ZArith QArith List Bool String Lia.
From Verif Require Import Result LexerModel ParserModel ParserSpec.
Import ListNotations.
Local Open Scope nat_scope.
Local Open Scope list_scope.

Lemma ptry_inv : forall A B (m : pres A) (k : A -> list tk -> pres B) x r,
  ptry m k = ret x r -> exists a r1, m = ret a r1 /\ k a r1 = ret x r.
Proof.
  intros A B m k x r H. unfold ptry in H.
  destruct m as [[[a r1]|]| |]; try discriminate. exists a, r1. split; auto.
Qed.
Lemma ptry_ret : forall A B (x : A) r (k : A -> list tk -> pres B), ptry (ret x r) k = k x r.
Proof. reflexivity. Qed.
Lemma ret_inj : forall A (x y : A) r s, ret x r = ret y s -> x = y /\ r = s.
Proof. intros A x y r s H. injection H as -> ->. auto. Qed.

Ltac ptac :=
  repeat match goal with
  | H : ptry _ _ = ret _ _ |- _ => apply ptry_inv in H; destruct H as (? & ? & ? & H)
  | H : ret _ _ = ret _ _ |- _ => apply ret_inj in H; destruct H; subst
  | H : Ok None = ret _ _ |- _ => discriminate
  | H : Bad = ret _ _ |- _ => discriminate
  | H : NoFuel = ret _ _ |- _ => discriminate
  end.

(** * The grammar in terms of the expressions *)
Section Mono.
  Variables full relaxed : bool.
  Variables E E' : list tk -> expr -> Prop.
  Hypothesis sub_E : forall ts e, E ts e -> E' ts e.
  Lemma separated_mono : forall A (I I' : list tk -> A -> Prop) s, (forall ts x, I ts x -> I' ts x) ->
    forall ts l, separated I s ts l -> separated I' s ts l.
  Proof. intros A I I' s H ts l D. induction D; constructor; auto. Qed.
  Hint Resolve separated_mono sub_E : mono.
  Hint Constructors g_subscript g_subscripts g_index g_named g_rest g_arguments g_call g_array g_outputs
    g_parens g_entry g_reference g_application g_primary g_factor g_term g_arith g_relation g_lfactor
    g_lterm g_lexpr g_simple g_else g_expression : mono.
  Ltac mono := intros ts x D; induction D; eauto with mono.
  Lemma m_subscript : forall ts x, g_subscript E ts x -> g_subscript E' ts x. Proof. mono. Qed.
  Hint Resolve m_subscript : mono.
  Lemma m_subscripts : forall ts x, g_subscripts E ts x -> g_subscripts E' ts x. Proof. mono. Qed.
  Lemma m_index : forall ts x, g_index E ts x -> g_index E' ts x. Proof. mono. Qed.
  Hint Resolve m_subscripts m_index : mono.
  Lemma m_indices : forall ts x, g_indices E ts x -> g_indices E' ts x.
  Proof. unfold g_indices. eauto with mono. Qed.
  Lemma m_named : forall ts x, g_named E ts x -> g_named E' ts x. Proof. mono. Qed.
  Hint Resolve m_indices m_named : mono.
  Lemma m_rest : forall ts x, g_rest E ts x -> g_rest E' ts x. Proof. mono. Qed.
  Hint Resolve m_rest : mono.
  Lemma m_arguments : forall ts x, g_arguments E ts x -> g_arguments E' ts x. Proof. mono. Qed.
  Hint Resolve m_arguments : mono.
  Lemma m_call : forall ts x, g_call E ts x -> g_call E' ts x. Proof. mono. Qed.
  Lemma m_array : forall ts x, g_array E ts x -> g_array E' ts x. Proof. mono. Qed.
  Lemma m_outputs : forall ts x, g_outputs full relaxed E ts x -> g_outputs full relaxed E' ts x. Proof. mono. Qed.
  Hint Resolve m_call m_array m_outputs : mono.
  Lemma m_parens : forall ts x, g_parens full relaxed E ts x -> g_parens full relaxed E' ts x. Proof. mono. Qed.
  Lemma m_entry : forall ts x, g_entry E ts x -> g_entry E' ts x. Proof. mono. Qed.
  Hint Resolve m_parens m_entry : mono.
  Lemma m_reference : forall ts x, g_reference full E ts x -> g_reference full E' ts x. Proof. mono. Qed.
  Hint Resolve m_reference : mono.
  Lemma m_application : forall ts x, g_application full E ts x -> g_application full E' ts x. Proof. mono. Qed.
  Hint Resolve m_application : mono.
  Lemma m_primary : forall ts x, g_primary full relaxed E ts x -> g_primary full relaxed E' ts x.
  Proof.
    mono. destruct H0 as [D|D]; eapply gpr_relaxed; eauto with mono.
  Qed.
  Hint Resolve m_primary : mono.
  Lemma m_factor : forall ts x, g_factor full relaxed E ts x -> g_factor full relaxed E' ts x. Proof. mono. Qed.
  Hint Resolve m_factor : mono.
  Lemma m_term : forall ts x, g_term full relaxed E ts x -> g_term full relaxed E' ts x. Proof. mono. Qed.
  Hint Resolve m_term : mono.
  Lemma m_arith : forall ts x, g_arith full relaxed E ts x -> g_arith full relaxed E' ts x. Proof. mono. Qed.
  Hint Resolve m_arith : mono.
  Lemma m_relation : forall ts x, g_relation full relaxed E ts x -> g_relation full relaxed E' ts x. Proof. mono. Qed.
  Hint Resolve m_relation : mono.
  Lemma m_lfactor : forall ts x, g_lfactor full relaxed E ts x -> g_lfactor full relaxed E' ts x. Proof. mono. Qed.
  Hint Resolve m_lfactor : mono.
  Lemma m_lterm : forall ts x, g_lterm full relaxed E ts x -> g_lterm full relaxed E' ts x. Proof. mono. Qed.
  Hint Resolve m_lterm : mono.
  Lemma m_lexpr : forall ts x, g_lexpr full relaxed E ts x -> g_lexpr full relaxed E' ts x. Proof. mono. Qed.
  Hint Resolve m_lexpr : mono.
  Lemma m_simple : forall ts x, g_simple full relaxed E ts x -> g_simple full relaxed E' ts x. Proof. mono. Qed.
  Lemma m_else : forall ts x, g_else full E ts x -> g_else full E' ts x. Proof. mono. Qed.
  Hint Resolve m_simple m_else : mono.
  Lemma m_expression : forall ts x, g_expression full relaxed E ts x -> g_expression full relaxed E' ts x.
  Proof. mono. Qed.
End Mono.

Lemma g_depth_mono : forall fl rx n m ts e, n <= m -> g_depth fl rx n ts e -> g_depth fl rx m ts e.
Proof.
  intros fl rx. induction n; intros m ts e Le D; [destruct D|].
  destruct m; [lia|]. cbn in *. revert D. apply m_expression. intros. apply IHn; auto. lia.
Qed.

(** * What is read is a phrase of the relaxed grammar *)
Definition sound {A} (p : list tk -> pres A) (G : list tk -> A -> Prop) : Prop :=
  forall ts x r, p ts = ret x r -> exists u, ts = u ++ r /\ G u x.

Lemma sep_loop_sound : forall A (item : list tk -> pres A) I sep s,
  sound item I -> (forall t, sep t = true -> t = s) ->
  forall n acc ts l r, sep_loop item sep n acc ts = ret l r ->
  exists u l', ts = u ++ r /\ l = acc ++ l' /\ separated I s u l'.
Proof.
  intros A item I sep s SI SS. induction n; intros acc ts l r H; [discriminate|].
  cbn [sep_loop] in H. ptac.
  destruct (SI _ _ _ H0) as (u & -> & D).
  assert (One : forall r', x0 = r' -> ret (acc ++ [x]) x0 = ret l r ->
    exists u' l', u ++ x0 = u' ++ r /\ l = acc ++ l' /\ separated I s u' l').
  { intros r' _ Q. ptac. exists u, [x]. repeat split; auto. now constructor. }
  destruct x0 as [|t ts2]; [eapply One; eauto|].
  destruct (sep t) eqn:Et; [|eapply One; eauto].
  apply SS in Et. subst t. destruct (IHn _ _ _ _ H) as (u' & l' & -> & -> & D').
  exists (u ++ s :: u'), (x :: l'). split; [now rewrite <- app_assoc|]. split; [now rewrite <- app_assoc|].
  now constructor.
Qed.

Lemma op_loop_sound : forall operand kind (B A : list tk -> expr -> Prop) ops,
  sound operand B -> (forall t k, kind t = Some k -> In (t, k) ops) ->
  (forall a x t k b y, A a x -> In (t, k) ops -> B b y -> A (a ++ t :: b) (XOp k [x; y])) ->
  forall n a e ts e' r, A a e -> op_loop operand kind n e ts = ret e' r ->
  exists u, ts = u ++ r /\ A (a ++ u) e'.
Proof.
  intros operand kind B A ops SB SK SA. induction n; intros a e ts e' r Ha H.
  - destruct ts as [|t ts1]; cbn in H.
    + ptac. exists []. split; [reflexivity|now rewrite app_nil_r].
    + destruct (kind t) eqn:Ek; [discriminate|]. ptac. exists []. split; [reflexivity|now rewrite app_nil_r].
  - destruct ts as [|t ts1]; cbn in H.
    + ptac. exists []. split; [reflexivity|now rewrite app_nil_r].
    + destruct (kind t) eqn:Ek.
      * ptac. destruct (SB _ _ _ H0) as (u & -> & D).
        destruct (IHn (a ++ t :: u) _ _ _ _ (SA _ _ _ _ _ _ Ha (SK _ _ Ek) D) H) as (u' & -> & D').
        exists (t :: u ++ u'). split; [cbn; now rewrite <- app_assoc|].
        now rewrite <- app_assoc in D'.
      * ptac. exists []. split; [reflexivity|now rewrite app_nil_r].
Qed.

Lemma is_comma_eq : forall t, is_comma t = true -> t = KComma. Proof. now destruct t. Qed.
Lemma is_or_eq : forall t, is_or t = true -> t = KOr. Proof. now destruct t. Qed.
Lemma is_and_eq : forall t, is_and t = true -> t = KAnd. Proof. now destruct t. Qed.
Lemma is_dot_eq : forall t, is_dot t = true -> t = KDot. Proof. now destruct t. Qed.
Ltac kinds := intros t k H; destruct t; inversion H; subst k; cbn; auto 10.
Lemma rel_kind_ops : forall t k, rel_kind t = Some k -> In (t, k) rel_ops. Proof. kinds. Qed.
Lemma add_kind_ops : forall t k, add_kind t = Some k -> In (t, k) add_ops. Proof. kinds. Qed.
Lemma mul_kind_ops : forall t k, mul_kind t = Some k -> In (t, k) mul_ops. Proof. kinds. Qed.
Lemma pow_kind_ops : forall t k, pow_kind t = Some k -> In (t, k) pow_ops. Proof. kinds. Qed.

Lemma separated_nonnil : forall A (I : list tk -> A -> Prop) s ts l, separated I s ts l -> l <> [].
Proof. intros A I s ts l D. destruct D; discriminate. Qed.
Lemma separated_one : forall A (I : list tk -> A -> Prop) s ts x, separated I s ts [x] -> I ts x.
Proof.
  intros A I s ts x D. inversion D; subst; auto.
  exfalso. eapply separated_nonnil; eauto.
Qed.

(** Rewrites a list into what was read and what is left. *)
Ltac lists := cbn; repeat (rewrite <- app_assoc; cbn); reflexivity.

(** The loop of the arguments, by itself. *)
Definition args_more (P : list tk -> pres expr) (n m' : nat) : nat -> list arg -> list tk -> pres (list arg) :=
  fix more (k : nat) (acc : list arg) (ts : list tk) : pres (list arg) :=
  match k with
  | O => NoFuel
  | S k' =>
      match ts with
      | KComma :: ts2 => ptry (p_argsNonFirst P n m' ts2) (fun l ts3 => more k' (acc ++ l) ts3)
      | _ => ret acc ts
      end
  end.
Lemma args_more_S : forall P n m' k acc ts, args_more P n m' (S k) acc ts =
  match ts with
  | KComma :: ts2 => ptry (p_argsNonFirst P n m' ts2) (fun l ts3 => args_more P n m' k (acc ++ l) ts3)
  | _ => ret acc ts
  end.
Proof. reflexivity. Qed.
Lemma args_step : forall P n m' ts, p_argsNonFirst P n (S m') ts =
  if starts_named ts then p_nameds P n ts
  else ptry (P ts) (fun e ts1 => args_more P n m' (S m') [AExpr e] ts1).
Proof. reflexivity. Qed.

Definition no_comma (r : list tk) : Prop := match r with KComma :: _ => False | _ => True end.
Lemma sep_loop_stop : forall A (item : list tk -> pres A) sep n acc ts l r,
  sep_loop item sep n acc ts = ret l r -> match r with t :: _ => sep t = false | [] => True end.
Proof.
  intros A item sep. induction n; intros acc ts l r H; [discriminate|]. cbn [sep_loop] in H. ptac.
  destruct x0 as [|t ts2]; [ptac; exact I|]. destruct (sep t) eqn:Et; [exact (IHn _ _ _ _ H)|]. ptac. auto.
Qed.
Lemma sep_loop_no_comma : forall A (item : list tk -> pres A) n acc ts l r,
  sep_loop item is_comma n acc ts = ret l r -> no_comma r.
Proof.
  intros A item n acc ts l r H. apply sep_loop_stop in H. destruct r as [|t r]; [exact I|].
  destruct t; try exact I. discriminate.
Qed.
Lemma args_more_stop : forall P n m' k acc ts l r, args_more P n m' k acc ts = ret l r -> no_comma r.
Proof.
  intros P n m'. induction k; intros acc ts l r H; [discriminate|]. rewrite args_more_S in H.
  destruct ts as [|t ts]; [ptac; exact I|].
  destruct t; try (ptac; exact I). ptac. exact (IHk _ _ _ _ H).
Qed.
Lemma args_stop : forall P n m ts l r, p_argsNonFirst P n m ts = ret l r -> no_comma r.
Proof.
  intros P n m ts l r H. destruct m; [discriminate|]. rewrite args_step in H.
  destruct (starts_named ts).
  - unfold p_nameds in H. eapply sep_loop_no_comma; eauto.
  - ptac. eapply args_more_stop; eauto.
Qed.
Lemma args_more_done : forall P n m' k acc ts, no_comma ts -> args_more P n m' (S k) acc ts = ret acc ts.
Proof. intros P n m' k acc ts H. rewrite args_more_S. destruct ts as [|t ts]; auto. destruct t; auto. destruct H. Qed.

Section Sound.
  Variable P : list tk -> pres expr.
  Variable n : nat.
  Variable E : list tk -> expr -> Prop.
  Hypothesis SP : sound P E.

  Lemma s_subscript : sound (p_subscript P) (g_subscript E).
  Proof.
    intros ts x r H. unfold p_subscript in H.
    assert (D : forall q, ptry (P ts) (fun e q => ret (SExpr e) q) = ret x q ->
      exists u, ts = u ++ q /\ g_subscript E u x).
    { intros q Q. ptac. destruct (SP _ _ _ H0) as (u & -> & D). exists u. split; auto. now constructor. }
    destruct ts as [|t ts]; [now apply D|]. destruct t; try (now apply D).
    ptac. exists [KColon]. split; auto. constructor.
  Qed.
  Lemma s_subscripts : sound (p_subscripts P n) (g_subscripts E).
  Proof.
    intros ts x r H. unfold p_subscripts in H. destruct ts as [|t ts]; [discriminate|].
    destruct t; try discriminate. ptac.
    destruct (sep_loop_sound _ _ _ _ KComma s_subscript is_comma_eq _ _ _ _ _ H0) as (u & l & -> & -> & D).
    destruct x1 as [|t x1]; [discriminate|]. destruct t; try discriminate. ptac.
    exists (KLSq :: u ++ [KRSq]). split; [lists|]. now constructor.
  Qed.
  Lemma s_forIndex : sound (p_forIndex P) (g_index E).
  Proof.
    intros ts x r H. unfold p_forIndex in H. destruct ts as [|t ts]; [discriminate|].
    destruct t; try discriminate.
    assert (D : ret (s, None) ts = ret x r -> exists u, KIdent s :: ts = u ++ r /\ g_index E u x).
    { intros Q. ptac. exists [KIdent s]. split; auto. constructor. }
    destruct ts as [|t ts]; [now apply D|]. destruct t; try (now apply D).
    ptac. destruct (SP _ _ _ H0) as (u & -> & D'). exists (KIdent s :: KIn :: u). split; [lists|].
    now constructor.
  Qed.
  Lemma s_forIndices : sound (p_forIndices P n) (g_indices E).
  Proof.
    intros ts x r H. unfold p_forIndices in H.
    destruct (sep_loop_sound _ _ _ _ KComma s_forIndex is_comma_eq _ _ _ _ _ H) as (u & l & -> & -> & D).
    exists u. split; auto.
  Qed.
  Lemma s_named : sound (p_named P) (g_named E).
  Proof.
    intros ts x r H. unfold p_named in H. destruct ts as [|t ts]; [discriminate|].
    destruct t; try discriminate. destruct ts as [|t ts]; [discriminate|].
    destruct t; try discriminate.
    ptac. destruct (SP _ _ _ H0) as (u & -> & D'). exists (KIdent s :: KAssign :: u). split; [lists|].
    now constructor.
  Qed.
  Lemma s_nameds : sound (p_nameds P n) (separated (g_named E) KComma).
  Proof.
    intros ts x r H. unfold p_nameds in H.
    destruct (sep_loop_sound _ _ _ _ KComma s_named is_comma_eq _ _ _ _ _ H) as (u & l & -> & -> & D).
    exists u. split; auto.
  Qed.

  Lemma s_args : forall m, sound (p_argsNonFirst P n m) (g_rest E).
  Proof.
    induction m; intros ts x r H; [discriminate|]. rewrite args_step in H.
    destruct (starts_named ts).
    - destruct (s_nameds _ _ _ H) as (u & -> & D). exists u. split; auto. now constructor.
    - ptac. destruct (SP _ _ _ H0) as (u & -> & D).
      rewrite args_more_S in H.
      assert (One : ret [AExpr x0] x1 = ret x r -> exists u', u ++ x1 = u' ++ r /\ g_rest E u' x).
      { intros Q. ptac. exists u. split; auto. now constructor. }
      destruct x1 as [|t ts1]; [now apply One|]. destruct t; try (now apply One). clear One. ptac.
      destruct (IHm _ _ _ H1) as (u' & -> & D'). apply args_stop in H1.
      destruct m as [|m]; [discriminate|]. rewrite args_more_done in H by auto. ptac.
      exists (u ++ KComma :: u'). split; [lists|]. now constructor.
  Qed.
  Lemma s_arguments : sound (p_functionArguments P n) (g_arguments E).
  Proof.
    intros ts x r H. unfold p_functionArguments in H. destruct (starts_named ts).
    - destruct (s_nameds _ _ _ H) as (u & -> & D). exists u. split; auto. now do 2 constructor.
    - ptac. destruct (SP _ _ _ H0) as (u & -> & D).
      assert (One : ret [AExpr x0] x1 = ret x r -> exists u', u ++ x1 = u' ++ r /\ g_arguments E u' x).
      { intros Q. ptac. exists u. split; auto. constructor. now apply gr_last. }
      destruct x1 as [|t ts1]; [now apply One|]. destruct t; try (now apply One); clear One; ptac.
      + destruct (s_forIndices _ _ _ H1) as (u' & -> & D'). exists (u ++ KFor :: u'). split; [lists|].
        now constructor.
      + destruct (s_args _ _ _ _ H1) as (u' & -> & D'). exists (u ++ KComma :: u'). split; [lists|].
        constructor. now constructor.
  Qed.
  Lemma s_call : sound (p_callArgs P n) (g_call E).
  Proof.
    intros ts x r H. unfold p_callArgs in H. destruct ts as [|t ts]; [discriminate|].
    destruct t; try discriminate.
    assert (Some_ : ptry (p_functionArguments P n ts) (fun l r1 =>
      match r1 with KRPar :: r2 => ret l r2 | _ => Ok None end) = ret x r ->
      exists u, KLPar :: ts = u ++ r /\ g_call E u x).
    { intros Q. ptac. destruct (s_arguments _ _ _ H0) as (u & -> & D).
      destruct x1 as [|t x1]; [discriminate|]. destruct t; try discriminate. ptac.
      exists (KLPar :: u ++ [KRPar]). split; [lists|]. now constructor. }
    destruct ts as [|t ts]; [now apply Some_|]. destruct t; try (now apply Some_). ptac.
    exists [KLPar; KRPar]. split; auto. constructor.
  Qed.
  Lemma s_outputs : forall m acc ts l r, p_outputs P m acc ts = ret l r ->
    exists u l', ts = u ++ r /\ l = acc ++ l' /\ g_outputs false true E u l'
                 /\ match r with KRPar :: _ => True | _ => False end.
  Proof.
    induction m; intros acc ts l r H; [discriminate|]. cbn [p_outputs] in H.
    assert (Item : ptry (P ts) (fun e r =>
      p_outputs P m (acc ++ [e]) (match r with KComma :: r' => r' | _ => r end)) = ret l r ->
      exists u l', ts = u ++ r /\ l = acc ++ l' /\ g_outputs false true E u l'
                   /\ match r with KRPar :: _ => True | _ => False end).
    { intros Q. ptac. destruct (SP _ _ _ H0) as (u & -> & D).
      destruct (IHm _ _ _ _ Q) as (u' & l' & E1 & -> & D' & S').
      assert (Loose : x0 = u' ++ r -> exists u0 l'0, u ++ x0 = u0 ++ r /\ (acc ++ [x]) ++ l' = acc ++ l'0 /\
        g_outputs false true E u0 l'0 /\ match r with KRPar :: _ => True | _ => False end).
      { intros ->. exists (u ++ u'), (x :: l'). split; [lists|]. split; [lists|]. split; auto.
        now apply go_loose. }
      destruct x0 as [|t x0]; [now apply Loose|]. destruct t; try (now apply Loose).
      subst x0. exists (u ++ KComma :: u'), (x :: l'). split; [lists|]. split; [lists|]. split; auto.
      now apply go_more. }
    destruct ts as [|t ts]; [now apply Item|]. destruct t; try (now apply Item); clear Item.
    - destruct (IHm _ _ _ _ H) as (u' & l' & -> & -> & D' & S').
      exists (KComma :: u'), (XDummy :: l'). split; [lists|]. split; [lists|]. split; auto. now apply go_skip.
    - ptac. exists [], []. split; auto. split; [now rewrite app_nil_r|]. split; auto. now apply go_end.
  Qed.
  Lemma s_entry : sound (p_entry P n) (g_entry E).
  Proof.
    intros ts x r H. unfold p_entry in H. destruct ts as [|t ts]; [discriminate|].
    destruct t; try discriminate.
    assert (D : ret (s, []) ts = ret x r -> exists u, KIdent s :: ts = u ++ r /\ g_entry E u x).
    { intros Q. ptac. exists [KIdent s]. split; auto. constructor. }
    destruct ts as [|t ts]; [now apply D|]. destruct t; try (now apply D). clear D. ptac.
    destruct (s_subscripts _ _ _ H0) as (u & Eq & D). exists (KIdent s :: u). split; [cbn; now rewrite Eq|].
    now constructor.
  Qed.
  Lemma s_reference : forall s ts x r, p_reference P n (KIdent s :: ts) = ret x r ->
    exists u, KIdent s :: ts = u ++ r /\ g_reference false E u x.
  Proof.
    intros s ts x r H. unfold p_reference in H. ptac.
    destruct (sep_loop_sound _ _ _ _ KDot s_entry is_dot_eq _ _ _ _ _ H0) as (u & l & Eq & -> & D).
    exists u. split; auto. now constructor.
  Qed.
  Definition relaxed_primary := g_primary false true E.
  Lemma s_indexed : forall e ts x r u0, p_indexed P n e ts = ret x r ->
    relaxed_primary u0 e ->
    (forall u l, g_subscripts E u l -> relaxed_primary (u0 ++ u) (XIndex e l)) ->
    exists u, ts = u ++ r /\ relaxed_primary (u0 ++ u) x.
  Proof.
    intros e ts x r u0 H D0 D1. unfold p_indexed in H.
    assert (D : ret e ts = ret x r -> exists u, ts = u ++ r /\ relaxed_primary (u0 ++ u) x).
    { intros Q. ptac. exists []. split; auto. now rewrite app_nil_r. }
    destruct ts as [|t ts]; [now apply D|]. destruct t; try (now apply D). clear D. ptac.
    destruct (s_subscripts _ _ _ H0) as (u & Eq & D). exists u. split; auto.
  Qed.
  Lemma s_array : forall ts a r, p_arrayArguments P n ts = ret a r ->
    exists u, ts = u ++ r /\
      match snd a with
      | [] => separated E KComma u (fst a)
      | ix => exists e, fst a = [e] /\ exists b c, u = b ++ KFor :: c /\ E b e /\ g_indices E c ix
      end.
  Proof.
    intros ts a r H. unfold p_arrayArguments in H. ptac. destruct (SP _ _ _ H0) as (u & -> & D).
    assert (One : ret ([x], []) x0 = ret a r -> exists u0, u ++ x0 = u0 ++ r /\
      match snd a with
      | [] => separated E KComma u0 (fst a)
      | ix => exists e, fst a = [e] /\ exists b c, u0 = b ++ KFor :: c /\ E b e /\ g_indices E c ix
      end).
    { intros Q. ptac. exists u. split; auto. cbn. now constructor. }
    destruct x0 as [|t ts1]; [now apply One|]. destruct t; try (now apply One); clear One; ptac.
    - destruct (s_forIndices _ _ _ H1) as (u' & -> & D'). exists (u ++ KFor :: u'). split; [lists|].
      cbn. destruct x0 as [|i ix]; [exfalso; now apply separated_nonnil in D'|].
      exists x. split; auto. exists u, u'. auto.
    - destruct (sep_loop_sound _ _ _ _ KComma SP is_comma_eq _ _ _ _ _ H1) as (u' & l & -> & -> & D').
      exists (u ++ KComma :: u'). split; [lists|]. cbn. now constructor.
  Qed.
  Lemma s_primary : sound (p_primary P n) relaxed_primary.
  Proof.
    intros ts x r H. unfold p_primary in H. destruct ts as [|t ts]; [discriminate|].
    destruct t; try discriminate; ptac.
    - (* identifier *)
      destruct (s_reference _ _ _ _ H0) as (u & Eq & D).
      assert (One : ret x0 x1 = ret x r -> exists u, KIdent s :: ts = u ++ r /\ relaxed_primary u x).
      { intros Q. ptac. exists u. split; auto. now apply gpr_ref. }
      destruct x1 as [|t r1]; [now apply One|]. destruct t; try (now apply One). clear One. ptac.
      destruct (s_call _ _ _ H1) as (u' & Eq' & D').
      destruct (s_indexed _ _ _ _ (u ++ u') H) as (u2 & -> & D2).
      + apply gpr_app. now constructor.
      + intros u2 l2 D2. apply gpr_relaxed; auto. left. now constructor.
      + exists ((u ++ u') ++ u2). split; auto. rewrite Eq, Eq'. now rewrite !app_assoc.
    - exists [KInt z]. split; auto. constructor.
    - exists [KReal q]. split; auto. constructor.
    - exists [KStr s]. split; auto. constructor.
    - exists [KTrue]. split; auto. constructor.
    - exists [KFalse]. split; auto. constructor.
    - (* der *)
      destruct (s_call _ _ _ H0) as (u' & -> & D').
      destruct (s_indexed _ _ _ _ (KDer :: u') H) as (u2 & -> & D2).
      + apply gpr_app. now constructor.
      + intros u2 l2 D2. apply gpr_relaxed; auto. left. now constructor.
      + exists ((KDer :: u') ++ u2). split; auto. lists.
    - (* parentheses *)
      destruct (s_outputs _ _ _ _ _ H0) as (u & l & -> & -> & D & Hr). cbn [app] in H.
      destruct x1 as [|t r2]; [discriminate|]. destruct t; try discriminate.
      assert (DP : g_parens false true E (KLPar :: u ++ [KRPar]) (match l with [e] => e | _ => XTuple l end)).
      { destruct l as [|e [|e' l]]; try (apply gp_many; auto; discriminate). now apply gp_one. }
      destruct (s_indexed _ _ _ _ (KLPar :: u ++ [KRPar]) H) as (u2 & -> & D2).
      + now apply gpr_parens.
      + intros u2 l2 D2. now apply gpr_index.
      + exists ((KLPar :: u ++ [KRPar]) ++ u2). split; auto. lists.
    - (* array *)
      destruct (s_array _ _ _ H0) as (u & -> & D).
      destruct x1 as [|t r2]; [discriminate|]. destruct t; try discriminate.
      destruct x0 as [l ix]. cbn [fst snd] in *.
      assert (DP : exists e, p_indexed P n e r2 = ret x r /\ g_array E (KLCurly :: u ++ [KRCurly]) e).
      { destruct ix as [|i ix].
        - eexists. split; [exact H|]. now constructor.
        - destruct D as (e & -> & b & c & -> & De & Di). eexists. split; [exact H|].
          replace (KLCurly :: (b ++ KFor :: c) ++ [KRCurly]) with (KLCurly :: b ++ KFor :: c ++ [KRCurly]) by lists.
          now constructor. }
      destruct DP as (e & He & DP).
      destruct (s_indexed _ _ _ _ (KLCurly :: u ++ [KRCurly]) He) as (u2 & -> & D2).
      + now apply gpr_array.
      + intros u2 l2 D2. apply gpr_relaxed; auto.
      + exists ((KLCurly :: u ++ [KRCurly]) ++ u2). split; auto. lists.
  Qed.
  Lemma s_factor : sound (p_factor P n) (g_factor false true E).
  Proof.
    intros ts x r H. unfold p_factor in H. ptac. destruct (s_primary _ _ _ H0) as (u & -> & D).
    assert (C : forall a x t k b y, g_factor false true E a x -> In (t, k) pow_ops -> relaxed_primary b y ->
      g_factor false true E (a ++ t :: b) (XOp k [x; y])) by (intros; now apply gf_chain).
    destruct (op_loop_sound _ _ _ _ _ s_primary pow_kind_ops C _ u _ _ _ _ (gf_one _ _ _ _ _ D) H) as (u' & -> & D').
    exists (u ++ u'). split; auto. lists.
  Qed.
  Lemma s_term : sound (p_term P n) (g_term false true E).
  Proof.
    intros ts x r H. unfold p_term in H. ptac. destruct (s_factor _ _ _ H0) as (u & -> & D).
    assert (C : forall a x t k b y, g_term false true E a x -> In (t, k) mul_ops -> g_factor false true E b y ->
      g_term false true E (a ++ t :: b) (XOp k [x; y])) by (intros; now apply gt_op).
    destruct (op_loop_sound _ _ _ _ _ s_factor mul_kind_ops C _ u _ _ _ _ (gt_one _ _ _ _ _ D) H) as (u' & -> & D').
    exists (u ++ u'). split; auto. lists.
  Qed.
  Lemma s_arith : sound (p_arith P n) (g_arith false true E).
  Proof.
    intros ts x r H. unfold p_arith in H.
    assert (Go : forall u0 neg ts', ts = u0 ++ ts' ->
      (forall u e, g_term false true E u e ->
         g_arith false true E (u0 ++ u) (if neg : bool then XOp ONegate [e] else e)) ->
      ptry (p_term P n ts') (fun e r => op_loop (p_term P n) add_kind n
          (if neg : bool then XOp ONegate [e] else e) r) = ret x r ->
      exists u, ts = u ++ r /\ g_arith false true E u x).
    { intros u0 neg ts' -> DD Q. ptac. destruct (s_term _ _ _ H0) as (u & -> & D).
      assert (C : forall a x t k b y, g_arith false true E a x -> In (t, k) add_ops -> g_term false true E b y ->
        g_arith false true E (a ++ t :: b) (XOp k [x; y])) by (intros; now apply gar_op).
      destruct (op_loop_sound _ _ _ _ _ s_term add_kind_ops C _ (u0 ++ u) _ _ _ _ (DD _ _ D) Q) as (u' & -> & D').
      exists ((u0 ++ u) ++ u'). split; auto. lists. }
    assert (Plain : ptry (p_term P n ts) (fun e r => op_loop (p_term P n) add_kind n e r) = ret x r ->
      exists u, ts = u ++ r /\ g_arith false true E u x).
    { intros Q. apply (Go [] false ts); auto. intros. cbn. now constructor. }
    destruct ts as [|t ts]; [now apply Plain|]. destruct t; try (now apply Plain); clear Plain.
    - apply (Go [KPlus] false ts); auto. intros. cbn. now apply gar_plus.
    - apply (Go [KMinus] true ts); auto. intros. cbn. now apply gar_minus.
  Qed.
  Lemma s_relation : sound (p_relation P n) (g_relation false true E).
  Proof.
    intros ts x r H. unfold p_relation in H. ptac. destruct (s_arith _ _ _ H0) as (u & -> & D).
    destruct x1 as [|t r1]; [ptac; exists u; split; auto; now constructor|].
    destruct (rel_kind t) eqn:Ek; [|ptac; exists u; split; auto; now constructor].
    ptac. destruct (s_arith _ _ _ H1) as (u' & -> & D'). exists (u ++ t :: u'). split; [lists|].
    apply grl_op; auto. now apply rel_kind_ops.
  Qed.
  Lemma s_lfactor : sound (p_lfactor P n) (g_lfactor false true E).
  Proof.
    intros ts x r H. unfold p_lfactor in H.
    assert (One : p_relation P n ts = ret x r -> exists u, ts = u ++ r /\ g_lfactor false true E u x).
    { intros Q. destruct (s_relation _ _ _ Q) as (u & -> & D). exists u. split; auto. now constructor. }
    destruct ts as [|t ts]; [now apply One|]. destruct t; try (now apply One). ptac.
    destruct (s_relation _ _ _ H0) as (u & -> & D). exists (KNot :: u). split; auto. now constructor.
  Qed.
  Lemma s_lterm : sound (p_lterm P n) (g_lterm false true E).
  Proof.
    intros ts x r H. unfold p_lterm in H. ptac.
    destruct (sep_loop_sound _ _ _ _ KAnd s_lfactor is_and_eq _ _ _ _ _ H0) as (u & l & -> & -> & D).
    exists u. split; auto. cbn. destruct l as [|e [|e' l]].
    - exfalso. now apply separated_nonnil in D.
    - cbn. apply separated_one in D. now constructor.
    - cbn. apply glt_and; auto. cbn. lia.
  Qed.
  Lemma s_lexpr : sound (p_lexpr P n) (g_lexpr false true E).
  Proof.
    intros ts x r H. unfold p_lexpr in H. ptac.
    destruct (sep_loop_sound _ _ _ _ KOr s_lterm is_or_eq _ _ _ _ _ H0) as (u & l & -> & -> & D).
    exists u. split; auto. cbn. destruct l as [|e [|e' l]].
    - exfalso. now apply separated_nonnil in D.
    - cbn. apply separated_one in D. now constructor.
    - cbn. apply gle_or; auto. cbn. lia.
  Qed.
  Lemma s_simple : sound (p_simple P n) (g_simple false true E).
  Proof.
    intros ts x r H. unfold p_simple in H. ptac. destruct (s_lexpr _ _ _ H0) as (u & -> & D).
    assert (One : ret x0 x1 = ret x r -> exists u', u ++ x1 = u' ++ r /\ g_simple false true E u' x).
    { intros Q. ptac. exists u. split; auto. now constructor. }
    destruct x1 as [|t r1]; [now apply One|]. destruct t; try (now apply One). clear One. ptac.
    destruct (s_lexpr _ _ _ H1) as (u' & -> & D').
    assert (Two : ret (XOp ORange [x0; x1]) x2 = ret x r ->
      exists u0, u ++ KColon :: u' ++ x2 = u0 ++ r /\ g_simple false true E u0 x).
    { intros Q. ptac. exists (u ++ KColon :: u'). split; [lists|]. now constructor. }
    destruct x2 as [|t r1]; [now apply Two|]. destruct t; try (now apply Two). clear Two. ptac.
    destruct (s_lexpr _ _ _ H2) as (u2 & -> & D2).
    exists (u ++ KColon :: u' ++ KColon :: u2). split; [lists|]. now constructor.
  Qed.
  Lemma s_expression : sound (p_expression P n) (g_expression false true E).
  Proof.
    intros ts x r H. unfold p_expression in H.
    assert (One : p_simple P n ts = ret x r -> exists u, ts = u ++ r /\ g_expression false true E u x).
    { intros Q. destruct (s_simple _ _ _ Q) as (u & -> & D). exists u. split; auto. now constructor. }
    destruct ts as [|t ts]; [now apply One|]. destruct t; try (now apply One). clear One. ptac.
    destruct (SP _ _ _ H0) as (u & -> & D).
    destruct x1 as [|t r1]; [discriminate|]. destruct t; try discriminate. ptac.
    destruct (SP _ _ _ H1) as (u1 & -> & D1).
    destruct x2 as [|t r2]; [discriminate|]. destruct t; try discriminate. ptac.
    destruct (SP _ _ _ H2) as (u2 & -> & D2).
    exists (KIf :: u ++ KThen :: u1 ++ KElse :: u2). split; [lists|].
    apply gex_if; auto. now constructor.
  Qed.
End Sound.

Theorem parse_sound : forall n, sound (parse_fuel n) (g_depth false true n).
Proof.
  induction n; [intros ts x r H; discriminate|]. cbn [g_depth].
  intros ts x r H. cbn [parse_fuel] in H. now apply (s_expression _ _ _ IHn) in H.
Qed.

(** * Every phrase has a token *)
Lemma separated_tokens : forall A (I : list tk -> A -> Prop) s, (forall ts x, I ts x -> ts <> []) ->
  forall ts l, separated I s ts l -> ts <> [].
Proof. intros A I s H ts l D. destruct D; eauto. destruct ts; discriminate. Qed.
Section Tokens.
  Variables full relaxed : bool.
  Variable E : list tk -> expr -> Prop.
  Lemma t_entry : forall ts x, g_entry E ts x -> ts <> []. Proof. intros ts x D. destruct D; discriminate. Qed.
  Lemma t_reference : forall ts x, g_reference full E ts x -> ts <> [].
  Proof.
    intros ts x D. destruct D; try discriminate. eapply separated_tokens; [|eauto]. apply t_entry.
  Qed.
  Lemma t_app : forall (a b : list tk), a <> [] -> a ++ b <> [].
  Proof. intros a b H. destruct a; [congruence|discriminate]. Qed.
  Lemma t_application : forall ts x, g_application full E ts x -> ts <> [].
  Proof. intros ts x D. destruct D; try discriminate. apply t_app. eapply t_reference; eauto. Qed.
  Lemma t_array : forall ts x, g_array E ts x -> ts <> []. Proof. intros ts x D. destruct D; discriminate. Qed.
  Lemma t_parens : forall ts x, g_parens full relaxed E ts x -> ts <> [].
  Proof. intros ts x D. destruct D; discriminate. Qed.
  Lemma t_primary : forall ts x, g_primary full relaxed E ts x -> ts <> [].
  Proof.
    intros ts x D.
    destruct D as [ | | | | |ts x D|ts x D|ts x D|ts x D|ts x ts' l D _|ts x ts' l _ D _]; try discriminate.
    - eapply t_reference; eauto.
    - eapply t_application; eauto.
    - eapply t_array; eauto.
    - eapply t_parens; eauto.
    - apply t_app. eapply t_parens; eauto.
    - apply t_app. destruct D; [eapply t_application|eapply t_array]; eauto.
  Qed.
  Lemma t_factor : forall ts x, g_factor full relaxed E ts x -> ts <> [].
  Proof.
    intros ts x D. induction D; try (apply t_app; auto; eapply t_primary; eauto).
    eapply t_primary; eauto.
  Qed.
  Lemma t_term : forall ts x, g_term full relaxed E ts x -> ts <> [].
  Proof. intros ts x D. induction D; [eapply t_factor; eauto|now apply t_app]. Qed.
  Lemma t_arith : forall ts x, g_arith full relaxed E ts x -> ts <> [].
  Proof. intros ts x D. induction D; try discriminate; [eapply t_term; eauto|now apply t_app]. Qed.
  Lemma t_relation : forall ts x, g_relation full relaxed E ts x -> ts <> [].
  Proof. intros ts x D. induction D; try apply t_app; eapply t_arith; eauto. Qed.
  Lemma t_lfactor : forall ts x, g_lfactor full relaxed E ts x -> ts <> [].
  Proof. intros ts x D. induction D; try discriminate; eapply t_relation; eauto. Qed.
  Lemma t_lterm : forall ts x, g_lterm full relaxed E ts x -> ts <> [].
  Proof.
    intros ts x D. induction D; [eapply t_lfactor; eauto|]. eapply separated_tokens; [|eauto]. apply t_lfactor.
  Qed.
  Lemma t_lexpr : forall ts x, g_lexpr full relaxed E ts x -> ts <> [].
  Proof.
    intros ts x D. induction D; [eapply t_lterm; eauto|]. eapply separated_tokens; [|eauto]. apply t_lterm.
  Qed.
  Lemma t_simple : forall ts x, g_simple full relaxed E ts x -> ts <> [].
  Proof. intros ts x D. induction D; try apply t_app; eapply t_lexpr; eauto. Qed.
  Lemma t_expression : forall ts x, g_expression full relaxed E ts x -> ts <> [].
  Proof. intros ts x D. induction D; try discriminate. eapply t_simple; eauto. Qed.
End Tokens.
Lemma t_depth : forall fl rx n ts x, g_depth fl rx n ts x -> ts <> [].
Proof. intros fl rx n ts x D. destruct n; [destruct D|]. eapply t_expression; eauto. Qed.

(** * The parser ends *)
Definition progress {A} (p : list tk -> pres A) : Prop :=
  forall ts x r, p ts = ret x r -> List.length r < List.length ts.
Definition fine {A} (b : nat) (p : list tk -> pres A) : Prop :=
  forall ts, List.length ts < b -> p ts <> NoFuel.
Lemma sound_progress : forall A (p : list tk -> pres A) G, sound p G -> (forall ts x, G ts x -> ts <> []) ->
  progress p.
Proof.
  intros A p G S T ts x r H. destruct (S _ _ _ H) as (u & -> & D). apply T in D.
  destruct u; [congruence|]. cbn. rewrite app_length. lia.
Qed.

Lemma fine_le : forall A b b' (p : list tk -> pres A), b' <= b -> fine b p -> fine b' p.
Proof. intros A b b' p Le F ts H. apply F. lia. Qed.
Lemma ptry_fine : forall A B (m : pres A) (k : A -> list tk -> pres B),
  m <> NoFuel -> (forall x r, m = ret x r -> k x r <> NoFuel) -> ptry m k <> NoFuel.
Proof.
  intros A B m k Hm Hk. unfold ptry. destruct m as [[[x r]|]| |]; try discriminate; auto.
Qed.

Lemma sep_loop_fine : forall A (item : list tk -> pres A) sep c, fine c item -> progress item ->
  forall n acc ts, List.length ts < c -> List.length ts < n -> sep_loop item sep n acc ts <> NoFuel.
Proof.
  intros A item sep c F Pr. induction n; intros acc ts Hc Hn; [lia|]. cbn [sep_loop].
  apply ptry_fine; [now apply F|]. intros x r Q. apply Pr in Q.
  destruct r as [|t r]; [discriminate|]. cbn in Q. destruct (sep t); [|discriminate].
  apply IHn; lia.
Qed.
Lemma op_loop_fine : forall operand kind c, fine c operand -> progress operand ->
  forall n e ts, List.length ts <= c -> List.length ts <= n -> op_loop operand kind n e ts <> NoFuel.
Proof.
  intros operand kind c F Pr. induction n; intros e ts Hc Hn.
  - destruct ts; [discriminate|]. cbn in Hn. lia.
  - destruct ts as [|t ts]; [discriminate|]. cbn. cbn in Hc, Hn. destruct (kind t); [|discriminate].
    apply ptry_fine; [apply F; lia|]. intros x r Q. apply Pr in Q. apply IHn; lia.
Qed.

Section Fine.
  Variable P : list tk -> pres expr.
  Variables n b : nat.
  Variable E : list tk -> expr -> Prop.
  Hypothesis SP : sound P E.
  Hypothesis TE : forall ts x, E ts x -> ts <> [].
  Hypothesis FP : fine b P.
  Hypothesis Hn : b < n.

  Let PP : progress P := sound_progress _ _ _ SP TE.
  Let pr_primary : progress (p_primary P n) := sound_progress _ _ _ (s_primary P n E SP) (t_primary _ _ _).
  Let pr_factor : progress (p_factor P n) := sound_progress _ _ _ (s_factor P n E SP) (t_factor _ _ _).
  Let pr_term : progress (p_term P n) := sound_progress _ _ _ (s_term P n E SP) (t_term _ _ _).
  Let pr_arith : progress (p_arith P n) := sound_progress _ _ _ (s_arith P n E SP) (t_arith _ _ _).
  Let pr_lfactor : progress (p_lfactor P n) := sound_progress _ _ _ (s_lfactor P n E SP) (t_lfactor _ _ _).
  Let pr_lterm : progress (p_lterm P n) := sound_progress _ _ _ (s_lterm P n E SP) (t_lterm _ _ _).
  Let pr_lexpr : progress (p_lexpr P n) := sound_progress _ _ _ (s_lexpr P n E SP) (t_lexpr _ _ _).
  Let pr_entry : progress (p_entry P n) := sound_progress _ _ _ (s_entry P n E SP) (t_entry _).
  Lemma pr_subscript : progress (p_subscript P).
  Proof.
    apply (sound_progress _ _ _ (s_subscript P E SP)). intros ts x D. destruct D; [discriminate|eauto].
  Qed.
  Lemma pr_forIndex : progress (p_forIndex P).
  Proof. apply (sound_progress _ _ _ (s_forIndex P E SP)). intros ts x D. destruct D; discriminate. Qed.
  Lemma pr_named : progress (p_named P).
  Proof. apply (sound_progress _ _ _ (s_named P E SP)). intros ts x D. destruct D; discriminate. Qed.
  Lemma pr_call : progress (p_callArgs P n).
  Proof. apply (sound_progress _ _ _ (s_call P n E SP)). intros ts x D. destruct D; discriminate. Qed.
  Lemma pr_args : forall m, progress (p_argsNonFirst P n m).
  Proof.
    intros m. apply (sound_progress _ _ _ (s_args P n E SP m)). intros ts x D. destruct D; eauto.
    - eapply separated_tokens; [|eauto]. intros ? ? D. destruct D; discriminate.
    - apply t_app. eauto.
  Qed.

  Ltac fin := solve [discriminate | auto | lia].
  Lemma f_subscript : fine b (p_subscript P).
  Proof.
    intros ts H. unfold p_subscript.
    assert (D : ptry (P ts) (fun e q => ret (SExpr e) q) <> NoFuel).
    { apply ptry_fine; [now apply FP|discriminate]. }
    destruct ts as [|t ts]; auto. destruct t; auto. discriminate.
  Qed.
  Lemma f_subscripts : fine (S b) (p_subscripts P n).
  Proof.
    intros ts H. unfold p_subscripts. destruct ts as [|t ts]; [discriminate|]. destruct t; try discriminate.
    cbn in H. apply ptry_fine.
    - apply sep_loop_fine with (c := b); [apply f_subscript|apply pr_subscript|lia|lia].
    - intros x r _. destruct r as [|t r]; [discriminate|]. destruct t; discriminate.
  Qed.
  Lemma f_forIndex : fine b (p_forIndex P).
  Proof.
    intros ts H. unfold p_forIndex. destruct ts as [|t ts]; [discriminate|]. destruct t; try discriminate.
    destruct ts as [|t ts]; [discriminate|]. destruct t; try discriminate.
    apply ptry_fine; [apply FP; cbn in H; lia|discriminate].
  Qed.
  Lemma f_forIndices : fine b (p_forIndices P n).
  Proof.
    intros ts H. apply sep_loop_fine with (c := b); [apply f_forIndex|apply pr_forIndex|lia|lia].
  Qed.
  Lemma f_named : fine b (p_named P).
  Proof.
    intros ts H. unfold p_named. destruct ts as [|t ts]; [discriminate|]. destruct t; try discriminate.
    destruct ts as [|t ts]; [discriminate|]. destruct t; try discriminate.
    apply ptry_fine; [apply FP; cbn in H; lia|discriminate].
  Qed.
  Lemma f_nameds : fine b (p_nameds P n).
  Proof. intros ts H. apply sep_loop_fine with (c := b); [apply f_named|apply pr_named|lia|lia]. Qed.
  Lemma f_args : forall m ts, List.length ts < b -> List.length ts < m -> p_argsNonFirst P n m ts <> NoFuel.
  Proof.
    induction m; intros ts Hb Hm; [lia|]. rewrite args_step. destruct (starts_named ts); [now apply f_nameds|].
    apply ptry_fine; [now apply FP|]. intros x r Q. apply PP in Q. rewrite args_more_S.
    destruct r as [|t r]; [discriminate|]. destruct t; try discriminate. cbn in Q.
    apply ptry_fine; [apply IHm; lia|]. intros l r1 Q1.
    assert (NC := args_stop _ _ _ _ _ _ Q1). destruct m; [lia|]. rewrite args_more_done by auto. discriminate.
  Qed.
  Lemma f_arguments : fine b (p_functionArguments P n).
  Proof.
    intros ts H. unfold p_functionArguments. destruct (starts_named ts); [now apply f_nameds|].
    apply ptry_fine; [now apply FP|]. intros x r Q. apply PP in Q.
    destruct r as [|t r]; [discriminate|]. cbn in Q. destruct t; try discriminate.
    - apply ptry_fine; [apply f_forIndices; lia|discriminate].
    - apply ptry_fine; [apply f_args; lia|discriminate].
  Qed.
  Lemma f_call : fine (S b) (p_callArgs P n).
  Proof.
    intros ts H. unfold p_callArgs. destruct ts as [|t ts]; [discriminate|].
    destruct t; try discriminate. cbn in H.
    assert (D : ptry (p_functionArguments P n ts) (fun l r1 =>
      match r1 with KRPar :: r2 => ret l r2 | _ => Ok None end) <> NoFuel).
    { apply ptry_fine; [apply f_arguments; lia|]. intros x r _. destruct r as [|t r]; [discriminate|].
      destruct t; discriminate. }
    destruct ts as [|t ts]; auto. destruct t; auto. discriminate.
  Qed.
  Lemma f_array : fine b (p_arrayArguments P n).
  Proof.
    intros ts H. unfold p_arrayArguments. apply ptry_fine; [now apply FP|]. intros x r Q. apply PP in Q.
    destruct r as [|t r]; [discriminate|]. cbn in Q. destruct t; try discriminate.
    - apply ptry_fine; [apply f_forIndices; lia|discriminate].
    - apply ptry_fine; [|discriminate]. apply sep_loop_fine with (c := b); auto; lia.
  Qed.
  Lemma f_outputs : forall m acc ts, List.length ts < b -> List.length ts < m -> p_outputs P m acc ts <> NoFuel.
  Proof.
    induction m; intros acc ts Hb Hm; [lia|]. cbn [p_outputs].
    assert (D : ptry (P ts) (fun e r =>
      p_outputs P m (acc ++ [e]) (match r with KComma :: r' => r' | _ => r end)) <> NoFuel).
    { apply ptry_fine; [now apply FP|]. intros x r Q. apply PP in Q.
      destruct r as [|t r]; [apply IHm; cbn in *; lia|].
      destruct t; apply IHm; cbn in *; lia. }
    destruct ts as [|t ts]; auto. destruct t; auto; cbn in *; [apply IHm; lia|discriminate].
  Qed.
  Lemma f_entry : fine (S b) (p_entry P n).
  Proof.
    intros ts H. unfold p_entry. destruct ts as [|t ts]; [discriminate|]. destruct t; try discriminate.
    destruct ts as [|t ts]; [discriminate|]. destruct t; try discriminate.
    apply ptry_fine; [apply f_subscripts; cbn in *; lia|discriminate].
  Qed.
  Lemma f_reference : fine (S b) (p_reference P n).
  Proof.
    intros ts H. unfold p_reference.
    assert (D : forall g l, List.length l <= List.length ts ->
      ptry (sep_loop (p_entry P n) is_dot n [] l) (fun l r => ret (XRef g l) r) <> NoFuel).
    { intros g l Hl. apply ptry_fine; [|discriminate].
      apply sep_loop_fine with (c := S b); auto; [apply f_entry|lia|lia]. }
    destruct ts as [|t ts]; [apply D; auto|]. destruct t; apply D; cbn; lia.
  Qed.
  Lemma f_indexed : forall e, fine (S b) (p_indexed P n e).
  Proof.
    intros e ts H. unfold p_indexed. destruct ts as [|t ts]; [discriminate|]. destruct t; try discriminate.
    apply ptry_fine; [now apply f_subscripts|discriminate].
  Qed.
  Lemma f_primary : fine (S b) (p_primary P n).
  Proof.
    intros ts H. unfold p_primary. destruct ts as [|t ts]; [discriminate|]. cbn in H.
    destruct t; try discriminate.
    - apply ptry_fine; [now apply f_reference|]. intros x r Q.
      assert (L : List.length r < S b).
      { destruct (s_reference P n E SP _ _ _ _ Q) as (u & Eq & _). apply (f_equal (@List.length tk)) in Eq.
        rewrite app_length in Eq. cbn in Eq. lia. }
      destruct r as [|t r]; [discriminate|]. destruct t; try discriminate.
      apply ptry_fine; [now apply f_call|]. intros y r1 Q1. apply pr_call in Q1. apply f_indexed. lia.
    - apply ptry_fine; [apply f_call; lia|]. intros y r1 Q1. apply pr_call in Q1. apply f_indexed. lia.
    - apply ptry_fine; [apply f_outputs; lia|]. intros y r1 Q1.
      destruct (s_outputs P E SP _ _ _ _ _ Q1) as (u & l & Eq & _). apply (f_equal (@List.length tk)) in Eq.
      rewrite app_length in Eq. destruct r1 as [|t r1]; [discriminate|]. cbn in Eq.
      destruct t; try discriminate. apply f_indexed. lia.
    - apply ptry_fine; [apply f_array; lia|]. intros y r1 Q1.
      destruct (s_array P n E SP _ _ _ Q1) as (u & Eq & _). apply (f_equal (@List.length tk)) in Eq.
      rewrite app_length in Eq. destruct r1 as [|t r1]; [discriminate|]. cbn in Eq.
      destruct t; try discriminate. destruct (snd y); [apply f_indexed; lia|].
      destruct (fst y) as [|e [|e' l9]]; try discriminate. apply f_indexed. lia.
  Qed.
  Lemma f_factor : fine (S b) (p_factor P n).
  Proof.
    intros ts H. apply ptry_fine; [now apply f_primary|]. intros x r Q. apply pr_primary in Q.
    apply op_loop_fine with (c := S b); [apply f_primary|auto|lia|lia].
  Qed.
  Lemma f_term : fine (S b) (p_term P n).
  Proof.
    intros ts H. apply ptry_fine; [now apply f_factor|]. intros x r Q. apply pr_factor in Q.
    apply op_loop_fine with (c := S b); [apply f_factor|auto|lia|lia].
  Qed.
  Lemma f_arith : fine (S b) (p_arith P n).
  Proof.
    intros ts H. unfold p_arith.
    assert (D : forall g l, List.length l <= List.length ts ->
      ptry (p_term P n l) (fun e r => op_loop (p_term P n) add_kind n
          (if g : bool then XOp ONegate [e] else e) r) <> NoFuel).
    { intros g l Hl. apply ptry_fine; [apply f_term; lia|]. intros x r Q. apply pr_term in Q.
      apply op_loop_fine with (c := S b); [apply f_term|auto|lia|lia]. }
    destruct ts as [|t ts]; [apply (D false); auto|].
    destruct t; (apply (D false); cbn; lia) || (apply (D true); cbn; lia).
  Qed.
  Lemma f_relation : fine (S b) (p_relation P n).
  Proof.
    intros ts H. apply ptry_fine; [now apply f_arith|]. intros x r Q. apply pr_arith in Q.
    destruct r as [|t r]; [discriminate|]. cbn in Q. destruct (rel_kind t); [|discriminate].
    apply ptry_fine; [apply f_arith; lia|discriminate].
  Qed.
  Lemma f_lfactor : fine (S b) (p_lfactor P n).
  Proof.
    intros ts H. unfold p_lfactor. destruct ts as [|t ts]; [now apply f_relation|].
    destruct t; try (now apply f_relation). apply ptry_fine; [apply f_relation; cbn in H; lia|discriminate].
  Qed.
  Lemma f_lterm : fine (S b) (p_lterm P n).
  Proof.
    intros ts H. apply ptry_fine; [|discriminate].
    apply sep_loop_fine with (c := S b); [apply f_lfactor|auto|lia|lia].
  Qed.
  Lemma f_lexpr : fine (S b) (p_lexpr P n).
  Proof.
    intros ts H. apply ptry_fine; [|discriminate].
    apply sep_loop_fine with (c := S b); [apply f_lterm|auto|lia|lia].
  Qed.
  Lemma f_simple : fine (S b) (p_simple P n).
  Proof.
    intros ts H. apply ptry_fine; [now apply f_lexpr|]. intros x r Q. apply pr_lexpr in Q.
    destruct r as [|t r]; [discriminate|]. cbn in Q. destruct t; try discriminate.
    apply ptry_fine; [apply f_lexpr; lia|]. intros y r1 Q1. apply pr_lexpr in Q1.
    destruct r1 as [|t r1]; [discriminate|]. cbn in Q1. destruct t; try discriminate.
    apply ptry_fine; [apply f_lexpr; lia|discriminate].
  Qed.
  Lemma f_expression : fine (S b) (p_expression P n).
  Proof.
    intros ts H. unfold p_expression. destruct ts as [|t ts]; [now apply f_simple|].
    destruct t; try (now apply f_simple). cbn in H.
    apply ptry_fine; [apply FP; lia|]. intros x r Q. apply PP in Q.
    destruct r as [|t r]; [discriminate|]. cbn in Q. destruct t; try discriminate.
    apply ptry_fine; [apply FP; lia|]. intros y r1 Q1. apply PP in Q1.
    destruct r1 as [|t r1]; [discriminate|]. cbn in Q1. destruct t; try discriminate.
    apply ptry_fine; [apply FP; lia|discriminate].
  Qed.
End Fine.

Theorem parse_fine : forall n, fine n (parse_fuel n).
Proof.
  induction n; intros ts H; [lia|]. cbn [parse_fuel].
  apply (f_expression _ _ n _ (parse_sound n) (t_depth _ _ n) IHn); lia.
Qed.
