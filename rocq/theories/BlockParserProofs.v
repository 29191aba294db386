(** The parser of equations and statements against the grammar. *)
From Coq Require Import ZArith QArith List Bool String Lia.
From Verif Require Import Result LexerModel ParserModel ParserSpec ParserProofs ParserCompleteProofs
  BlockParserModel BlockParserSpec.
Import ListNotations.
Local Open Scope nat_scope.
Local Open Scope list_scope.

(** * Expressions, once more *)
Lemma parse_expression_sound : sound parse_expression (g_expr false true).
Proof.
  intros ts x r H. destruct (parse_sound _ _ _ _ H) as (u & -> & D). exists u. split; auto. now exists (S (List.length (u ++ r))).
Qed.
Lemma parse_expression_complete : forall b, complete parse_expression (g_expr false false) (stop 8) b.
Proof. intros b ts x rest [d D] Ok _. apply (parse_complete d); auto. Qed.
Lemma parse_expression_reads : forall ts x rest, g_expr false false ts x -> stop 8 rest ->
  parse_expression (ts ++ rest) = ret x rest.
Proof. intros ts x rest D Ok. exact (parse_expression_complete _ _ _ _ D Ok (Nat.lt_succ_diag_r _)). Qed.
Lemma g_expr_tokens : forall fl rx ts x, g_expr fl rx ts x -> ts <> [].
Proof. intros fl rx ts x [d D]. eapply t_depth; eauto. Qed.
Lemma g_expr_starts : forall ts x, g_expr false false ts x -> starts 3 ts.
Proof. intros ts x [d D]. destruct d; [destruct D|]. eapply b_expression; eauto. Qed.
Lemma g_expr_named : forall ts x, g_expr false false ts x -> starts_named ts = false.
Proof.
  intros ts x D. destruct ts as [|t [|t' u]]; auto; [destruct t; auto|].
  destruct t; auto. destruct t'; auto. exfalso.
  pose proof (parse_expression_complete _ _ _ [] D I (Nat.lt_succ_diag_r _)) as Q. rewrite app_nil_r in Q.
  unfold parse_expression in Q. rewrite named_read in Q. apply ret_inj in Q. destruct Q as [_ Q]. discriminate.
Qed.
Lemma parse_expression_fine : forall b, fine b parse_expression.
Proof. intros b ts _. apply parse_fine. lia. Qed.
Lemma parse_expression_progress : progress parse_expression.
Proof. exact (sound_progress _ _ _ parse_expression_sound (g_expr_tokens _ _)). Qed.

Lemma reference_tokens : forall fl E ts x, g_reference fl E ts x -> ts <> [].
Proof. intros. eapply t_reference; eauto. Qed.

(** References from any scope. *)
Lemma any_reference_sound : forall P n E, sound P E -> sound (p_reference P n) (g_reference true E).
Proof.
  intros P n E SP ts x r H. unfold p_reference in H.
  assert (D : forall g l, ptry (sep_loop (p_entry P n) is_dot n [] l) (fun l r => ret (XRef g l) r) = ret x r ->
    exists u l', l = u ++ r /\ x = XRef g l' /\ separated (g_entry E) KDot u l').
  { intros g l Q. ptac.
    destruct (sep_loop_sound _ _ _ _ KDot (s_entry P n E SP) is_dot_eq _ _ _ _ _ H0) as (u & l' & -> & -> & D).
    eauto. }
  destruct ts as [|t ts].
  - destruct (D _ _ H) as (u & l' & -> & -> & D'). exists u. split; auto. now constructor.
  - destruct t; try (destruct (D _ _ H) as (u & l' & -> & -> & D'); exists u; split; [reflexivity|now constructor]).
    destruct (D _ _ H) as (u & l' & -> & -> & D'). exists (KDot :: u). split; auto. now constructor.
Qed.
Lemma any_reference_complete : forall P n b E, complete P E (stop 8) b ->
  (forall ts e, E ts e -> starts 3 ts) -> b < n ->
  forall ts e, g_reference true E ts e -> forall rest, not_subs rest ->
  match rest with KDot :: _ => False | _ => True end -> List.length (ts ++ rest) < S b ->
  p_reference P n (ts ++ rest) = ret e rest.
Proof.
  intros P n b E CP BE Hn ts e D rest Ok Ok' Hb.
  assert (Go : forall ts l g, separated (g_entry E) KDot ts l -> List.length (ts ++ rest) < S b ->
    ptry (sep_loop (p_entry P n) is_dot n [] (ts ++ rest)) (fun l r => ret (XRef g l) r) = ret (XRef g l) rest).
  { clear ts e D Hb. intros ts l g D Hb.
    rewrite (sep_loop_complete _ _ _ _ KDot _ _ (c_entry P n b E CP BE Hn)) with (l := l); auto; try lia.
    - intros r. exact I.
    - destruct rest as [|t r]; auto. destruct t; auto. destruct Ok'. }
  unfold p_reference. destruct D as [ts l D|ts l _ D].
  - assert (exists s u, ts = KIdent s :: u) as (s & u & Eq).
    { destruct D as [ts x D|ts x ts' l D Ds]; destruct D; cbn; eauto. }
    pose proof (Go _ _ false D Hb) as Q. rewrite Eq in *. exact Q.
  - cbn [app] in *. apply Go; auto. cbn in Hb. lia.
Qed.

(** * Blocks *)
Lemma head_is_spec : forall p ts, head_is p ts = true -> exists t r, ts = t :: r /\ p t = true.
Proof. intros p ts H. destruct ts as [|t r]; [discriminate|]. eauto. Qed.

Section Blocks.
  Context {A : Type}.
  Variables fl rx : bool.

  Lemma block_sound : forall (item : list tk -> pres A) G sp, sound item G ->
    forall n acc ts l r, block item sp n acc ts = ret l r ->
    exists u l', ts = u ++ r /\ l = acc ++ l' /\ g_block G u l' /\ head_is sp r = true.
  Proof.
    intros item G sp SI. induction n; intros acc ts l r H; [discriminate|]. cbn [block] in H.
    destruct (head_is sp ts) eqn:Hs.
    - ptac. exists [], []. rewrite ?app_nil_r. split; [reflexivity|]. split; auto. split; auto. constructor.
    - ptac. destruct (SI _ _ _ H0) as (u & -> & D).
      destruct x0 as [|t x0]; [discriminate|]. destruct t; try discriminate.
      destruct (IHn _ _ _ _ H) as (u' & l' & -> & -> & D' & Hs').
      exists (u ++ KSemi :: u'), (x :: l'). split; [lists|]. split; [lists|]. split; auto. now constructor.
  Qed.
  Lemma branches_sound : forall (item : list tk -> pres A) G sp key k, sound item G ->
    (forall t, key t = true -> t = k) ->
    forall n acc ts l r, branches item sp key n acc ts = ret l r ->
    exists u l', ts = u ++ r /\ l = acc ++ l' /\ g_branches false true G k u l'.
  Proof.
    intros item G sp key k SI SK. induction n; intros acc ts l r H; [discriminate|]. cbn [branches] in H.
    destruct ts as [|t ts].
    - ptac. exists [], []. rewrite ?app_nil_r. repeat split; auto. constructor.
    - destruct (key t) eqn:Ek; [|ptac; exists [], []; rewrite ?app_nil_r; repeat split; auto; constructor].
      apply SK in Ek. subst t. ptac. destruct (parse_expression_sound _ _ _ H0) as (u & -> & D).
      destruct x0 as [|t x0]; [discriminate|]. destruct t; try discriminate. ptac.
      destruct (block_sound _ _ _ SI _ _ _ _ _ H1) as (u1 & l1 & -> & -> & D1 & _).
      destruct (IHn _ _ _ _ H) as (u' & l' & -> & -> & D').
      exists (k :: u ++ KThen :: u1 ++ u'), ((x, l1) :: l'). split; [lists|]. split; [lists|]. now constructor.
  Qed.
  Lemma stmt_branches_sound : forall (item : list tk -> pres A) G, sound item G ->
    forall n acc ts l r, stmt_branches item n acc ts = ret l r ->
    exists u l', ts = u ++ r /\ l = acc ++ l' /\ g_branches false true G KElseIf u l'.
  Proof.
    intros item G SI. induction n; intros acc ts l r H; [discriminate|]. cbn [stmt_branches] in H.
    destruct (head_is is_else_or_end ts).
    - ptac. exists [], []. rewrite ?app_nil_r. repeat split; auto. constructor.
    - destruct ts as [|t ts]; [discriminate|]. destruct t; try discriminate. ptac.
      destruct (parse_expression_sound _ _ _ H0) as (u & -> & D).
      destruct x0 as [|t x0]; [discriminate|]. destruct t; try discriminate. ptac.
      destruct (block_sound _ _ _ SI _ _ _ _ _ H1) as (u1 & l1 & -> & -> & D1 & _).
      destruct (IHn _ _ _ _ H) as (u' & l' & -> & -> & D').
      exists (KElseIf :: u ++ KThen :: u1 ++ u'), ((x, l1) :: l'). split; [lists|]. split; [lists|]. now constructor.
  Qed.
  Lemma else_sound : forall (item : list tk -> pres A) G n, sound item G ->
    sound (else_block item n) (g_else_block G).
  Proof.
    intros item G n SI ts x r H. unfold else_block in H.
    assert (D : ret None ts = ret x r -> exists u, ts = u ++ r /\ g_else_block G u x).
    { intros Q. ptac. exists []. split; auto. constructor. }
    destruct ts as [|t ts]; [now apply D|]. destruct t; try (now apply D). clear D. ptac.
    destruct (block_sound _ _ _ SI _ _ _ _ _ H0) as (u1 & l1 & -> & -> & D1 & _).
    exists (KElse :: u1). split; auto. now constructor.
  Qed.
End Blocks.

(** Only a list without branches can be set. *)
Lemma set_branches_ok : forall A (l : list (list A)) v, set_branches [] 0 l = Ok v -> l = [].
Proof. intros A l v H. destruct l; auto. discriminate. Qed.
Lemma made_inv : forall A B (m : res A) (x y : B) ts r, made m x ts = ret y r ->
  (exists v, m = Ok v) /\ y = x /\ r = ts.
Proof. intros A B m x y ts r H. destruct m; try discriminate. cbn in H. ptac. eauto. Qed.

Lemma is_elseif_eq : forall t, is_elseif t = true -> t = KElseIf. Proof. now destruct t. Qed.
Lemma is_elsewhen_eq : forall t, is_elsewhen t = true -> t = KElseWhen. Proof. now destruct t. Qed.

Ltac next :=
  match goal with
  | H : match ?r with _ => _ end = ret _ _ |- _ =>
      destruct r as [|? ?]; [discriminate H|];
      match type of H with match ?t with _ => _ end = _ => destruct t; try discriminate H end
  end.

Section EquationSound.
  Variable Q : list tk -> pres eqn.
  Variable n : nat.
  Variable G : list tk -> eqn -> Prop.
  Hypothesis SQ : sound Q G.
  Lemma s_forIndices_r : sound r_forIndices (g_indices (E false true)).
  Proof. intros ts x r H. exact (s_forIndices _ _ _ parse_expression_sound _ _ _ H). Qed.
  Lemma s_q_if : forall ts x r, q_if Q n ts = ret x r ->
    exists u, ts = u ++ r /\ g_equation false true G (KIf :: u) x.
  Proof.
    intros ts x r H. unfold q_if in H. ptac. destruct (parse_expression_sound _ _ _ H0) as (u & -> & D).
    next. ptac.
    destruct (block_sound _ _ _ SQ _ _ _ _ _ H1) as (u1 & l1 & -> & -> & D1 & _).
    destruct (branches_sound _ _ _ _ _ SQ is_elseif_eq _ _ _ _ _ H2) as (u2 & l2 & -> & -> & D2).
    destruct (else_sound _ _ _ SQ _ _ _ H3) as (u3 & -> & D3).
    next. next. apply made_inv in H. destruct H as ([v Hv] & -> & ->).
    apply set_branches_ok, map_eq_nil in Hv. cbn [app] in Hv |- *. subst l2.
    exists (u ++ KThen :: u1 ++ u2 ++ u3 ++ [KEnd; KIf]). split; [lists|].
    apply gq_if; auto.
  Qed.
  Lemma s_q_for : forall ts x r, q_for Q n ts = ret x r ->
    exists u, ts = u ++ r /\ g_equation false true G (KFor :: u) x.
  Proof.
    intros ts x r H. unfold q_for in H. ptac. destruct (s_forIndices_r _ _ _ H0) as (u & -> & D).
    next. ptac.
    destruct (block_sound _ _ _ SQ _ _ _ _ _ H1) as (u1 & l1 & -> & -> & D1 & _).
    next. next. ptac.
    exists (u ++ KLoop :: u1 ++ [KEnd; KFor]). split; [lists|]. now apply gq_for.
  Qed.
  Lemma s_q_when : forall ts x r, q_when Q n ts = ret x r ->
    exists u, ts = u ++ r /\ g_equation false true G (KWhen :: u) x.
  Proof.
    intros ts x r H. unfold q_when in H. ptac. destruct (parse_expression_sound _ _ _ H0) as (u & -> & D).
    next. ptac.
    destruct (block_sound _ _ _ SQ _ _ _ _ _ H1) as (u1 & l1 & -> & -> & D1 & _).
    destruct (branches_sound _ _ _ _ _ SQ is_elsewhen_eq _ _ _ _ _ H2) as (u2 & l2 & -> & -> & D2).
    destruct (else_sound _ _ _ SQ _ _ _ H3) as (u3 & -> & D3).
    next. next. apply made_inv in H. destruct H as ([v Hv] & -> & ->).
    apply set_branches_ok, map_eq_nil in Hv. cbn [app] in Hv |- *. subst l2. inversion D2. subst u2.
    exists (u ++ KThen :: u1 ++ u3 ++ [KEnd; KIf]). split; [lists|].
    apply gq_when_relaxed; auto.
  Qed.
  Lemma s_q_equation : sound (q_equation Q n) (g_equation false true G).
  Proof.
    intros ts x r H. unfold q_equation in H.
    assert (Eq : hd KSemi ts <> KIf -> ptry (parse_expression ts) (fun a r =>
      match r with
      | KAssign :: r1 =>
          ptry (parse_expression r1) (fun b r2 =>
            ret (QEq a b) (match r2 with KStr _ :: r3 => r3 | _ => r2 end))
      | _ => Ok None
      end) = ret x r -> exists u, ts = u ++ r /\ g_equation false true G u x).
    { clear H. intros Hd H. ptac. destruct (parse_sound _ _ _ _ H0) as (u & -> & D).
      next. ptac. destruct (parse_expression_sound _ _ _ H1) as (u1 & -> & D1).
      assert (S : simple false true u x0).
      { cbn [g_depth] in D. inversion D; subst; [eexists; eassumption|]. cbn in Hd. congruence. }
      assert (exists c, x3 = c ++ match x3 with KStr _ :: r3 => r3 | _ => x3 end /\ g_comment c) as (c & Ec & Dc).
      { destruct x3 as [|t x3]; [exists []; split; [reflexivity|constructor]|].
        destruct t; try (exists []; split; [reflexivity|constructor]).
        exists [KStr s]. split; [reflexivity|constructor]. }
      exists (u ++ KAssign :: u1 ++ c). split; [|now constructor].
      rewrite Ec at 1. lists. }
    destruct ts as [|t ts]; [now apply Eq|].
    destruct t; try (apply Eq; [discriminate|exact H]); clear Eq.
    - destruct (s_q_if _ _ _ H) as (u & -> & D). exists (KIf :: u). auto.
    - destruct (s_q_for _ _ _ H) as (u & -> & D). exists (KFor :: u). auto.
    - destruct (s_q_when _ _ _ H) as (u & -> & D). exists (KWhen :: u). auto.
  Qed.
End EquationSound.
Theorem equation_sound : forall n, sound (equation_fuel n) (g_equation_depth false true n).
Proof.
  induction n; [intros ts x r H; discriminate|]. cbn [g_equation_depth].
  intros ts x r H. cbn [equation_fuel] in H. now apply (s_q_equation _ _ _ IHn) in H.
Qed.

Section StatementSound.
  Variable Q : list tk -> pres stmt.
  Variable n : nat.
  Variable G : list tk -> stmt -> Prop.
  Hypothesis SQ : sound Q G.
  Lemma s_z_if : forall ts x r, z_if Q n ts = ret x r ->
    exists u, ts = u ++ r /\ g_statement false true G (KIf :: u) x.
  Proof.
    intros ts x r H. unfold z_if in H. ptac. destruct (parse_expression_sound _ _ _ H0) as (u & -> & D).
    next. ptac.
    destruct (block_sound _ _ _ SQ _ _ _ _ _ H1) as (u1 & l1 & -> & -> & D1 & _).
    destruct (stmt_branches_sound _ _ SQ _ _ _ _ _ H2) as (u2 & l2 & -> & -> & D2).
    destruct (else_sound _ _ _ SQ _ _ _ H3) as (u3 & -> & D3).
    next. next. ptac.
    exists (u ++ KThen :: u1 ++ u2 ++ u3 ++ [KEnd; KIf]). split; [lists|]. now apply gz_if.
  Qed.
  Lemma s_z_for : forall ts x r, z_for Q n ts = ret x r ->
    exists u, ts = u ++ r /\ g_statement false true G (KFor :: u) x.
  Proof.
    intros ts x r H. unfold z_for in H. ptac. destruct (s_forIndices_r _ _ _ H0) as (u & -> & D).
    next. ptac.
    destruct (block_sound _ _ _ SQ _ _ _ _ _ H1) as (u1 & l1 & -> & -> & D1 & _).
    next. next. ptac.
    exists (u ++ KLoop :: u1 ++ [KEnd; KFor]). split; [lists|]. now apply gz_for.
  Qed.
  Lemma s_z_while : forall ts x r, z_while Q n ts = ret x r ->
    exists u, ts = u ++ r /\ g_statement false true G (KWhile :: u) x.
  Proof.
    intros ts x r H. unfold z_while in H. ptac. destruct (parse_expression_sound _ _ _ H0) as (u & -> & D).
    next. ptac.
    destruct (block_sound _ _ _ SQ _ _ _ _ _ H1) as (u1 & l1 & -> & -> & D1 & _).
    next. next. ptac.
    exists (u ++ KLoop :: u1 ++ [KEnd; KWhile]). split; [lists|]. now apply gz_while.
  Qed.
  Lemma s_z_when : forall ts x r, z_when Q n ts = ret x r ->
    exists u, ts = u ++ r /\ g_statement false true G (KWhen :: u) x.
  Proof.
    intros ts x r H. unfold z_when in H. ptac. destruct (parse_expression_sound _ _ _ H0) as (u & -> & D).
    next. ptac.
    destruct (block_sound _ _ _ SQ _ _ _ _ _ H1) as (u1 & l1 & -> & -> & D1 & _).
    next. next. ptac.
    exists (u ++ KLoop :: u1 ++ [KEnd; KWhen]). split; [lists|]. now apply gz_when_relaxed.
  Qed.
  Lemma s_z_tuple : forall ts x r, z_tuple ts = ret x r ->
    exists u, ts = u ++ r /\ g_statement false true G (KLPar :: u) x.
  Proof.
    intros ts x r H. unfold z_tuple in H. ptac. unfold r_outputs in H0.
    destruct (s_outputs _ _ parse_expression_sound _ _ _ _ _ H0) as (u & l & Eq & -> & D & _).
    next. next. ptac.
    unfold r_reference in H1. destruct (any_reference_sound _ _ _ parse_expression_sound _ _ _ H1) as (u1 & -> & D1).
    unfold r_callArgs in H2. destruct (s_call _ _ _ parse_expression_sound _ _ _ H2) as (u2 & -> & D2).
    exists (u ++ KRPar :: KAssignOp :: u1 ++ u2). split; [lists|].
    cbn [app]. apply gz_tuple; auto. now right.
  Qed.
  Lemma s_z_reference : sound z_reference (g_statement false true G).
  Proof.
    intros ts x r H. unfold z_reference in H. ptac. unfold r_reference in H0.
    destruct (any_reference_sound _ _ _ parse_expression_sound _ _ _ H0) as (u & Eq & D).
    next; ptac.
    - unfold r_arguments in H1. destruct (s_arguments _ _ _ parse_expression_sound _ _ _ H1) as (u1 & -> & D1).
      next. ptac. exists (u ++ KLPar :: u1 ++ [KRPar]). split; [lists|]. now apply gz_call.
    - destruct (parse_expression_sound _ _ _ H1) as (u1 & -> & D1).
      exists (u ++ KAssignOp :: u1). split; [lists|]. now apply gz_assign.
  Qed.
  Lemma s_z_statement : sound (z_statement Q n) (g_statement false true G).
  Proof.
    intros ts x r H. unfold z_statement in H.
    destruct ts as [|t ts]; [exact (s_z_reference _ _ _ H)|].
    destruct t; try (exact (s_z_reference _ _ _ H)).
    - destruct (s_z_if _ _ _ H) as (u & -> & D). exists (KIf :: u). auto.
    - destruct (s_z_for _ _ _ H) as (u & -> & D). exists (KFor :: u). auto.
    - destruct (s_z_tuple _ _ _ H) as (u & -> & D). exists (KLPar :: u). auto.
    - destruct (s_z_while _ _ _ H) as (u & -> & D). exists (KWhile :: u). auto.
    - destruct (s_z_when _ _ _ H) as (u & -> & D). exists (KWhen :: u). auto.
    - ptac. exists [KBreak]. split; auto. constructor.
    - ptac. exists [KReturn]. split; auto. constructor.
  Qed.
End StatementSound.
Theorem statement_sound : forall n, sound (statement_fuel n) (g_statement_depth false true n).
Proof.
  induction n; [intros ts x r H; discriminate|]. cbn [g_statement_depth].
  intros ts x r H. cbn [statement_fuel] in H. now apply (s_z_statement _ _ _ IHn) in H.
Qed.

(** * Tokens that may come first *)
Definition item_start (t : tk) : bool :=
  match t with KElseIf | KElse | KElseWhen | KEnd | KWord _ | KOther _ => false | _ => true end.
Definition starts_item (ts : list tk) : Prop := match ts with t :: _ => item_start t = true | [] => False end.
Definition ends_item (sp : tk -> bool) : Prop := forall t, sp t = true -> item_start t = false.
Lemma if_stop_item : ends_item if_stop. Proof. now intros []. Qed.
Lemma when_stop_item : ends_item when_stop. Proof. now intros []. Qed.
Lemma end_stop_item : ends_item end_stop. Proof. now intros []. Qed.
Lemma starts_start : forall k ts, k <= 3 -> starts k ts -> starts_item ts.
Proof. intros k ts Hk H. destruct ts as [|t ts]; [destruct H|]. cbn in *. destruct t; cbn in *; auto; lia. Qed.
Lemma starts_item_app : forall ts r, starts_item ts -> starts_item (ts ++ r).
Proof. intros ts r H. destruct ts; [destruct H|exact H]. Qed.

Section BlocksComplete.
  Context {A : Type}.
  Variable item : list tk -> pres A.
  Variable G : list tk -> A -> Prop.
  Variable ok : list tk -> Prop.
  Variable c : nat.
  Hypothesis CI : complete item G ok c.
  Hypothesis OS : forall r, ok (KSemi :: r).
  Hypothesis BI : forall ts x, G ts x -> starts_item ts.
  Lemma block_complete : forall sp, ends_item sp -> forall ts l, g_block G ts l -> forall n acc rest,
    head_is sp rest = true -> List.length (ts ++ rest) < c -> List.length (ts ++ rest) < n ->
    block item sp n acc (ts ++ rest) = ret (acc ++ l) rest.
  Proof.
    intros sp Es ts l D. induction D as [|a x b l D Ds IH]; intros n acc rest Hr Hc Hn.
    - destruct n; [lia|]. cbn [app block]. rewrite Hr. now rewrite app_nil_r.
    - destruct n; [lia|]. assoc. pose proof (CI _ _ _ D (OS (b ++ rest)) Hc) as Q. apply BI in D.
      cbn [block]. rewrite Q. destruct a as [|t a]; [destruct D|]. cbn [app head_is] in *.
      replace (sp t) with false by (cbn in D; destruct (sp t) eqn:S; auto; apply Es in S; congruence).
      rewrite ptry_ret, IH; auto; [now rewrite <- app_assoc|len|len].
  Qed.
  Definition ends_branch (sp : tk -> bool) (key : tk) (rest : list tk) : Prop :=
    match rest with t :: _ => sp t = true /\ t <> key | [] => False end.
  Lemma head_branches : forall sp k ts l rest, sp k = true -> g_branches false false G k ts l ->
    head_is sp rest = true -> head_is sp (ts ++ rest) = true.
  Proof. intros sp k ts l rest Hk D Hr. destruct D; auto. Qed.
  Lemma branches_complete : forall sp key k, ends_item sp -> sp k = true -> key k = true ->
    forall ts l, g_branches false false G k ts l ->
    forall n acc rest, head_is sp rest = true -> head_is key rest = false ->
    List.length (ts ++ rest) < c -> List.length (ts ++ rest) < n ->
    branches item sp key n acc (ts ++ rest) = ret (acc ++ l) rest.
  Proof.
    intros sp key k Es Sk Kk ts l D. induction D as [|a e b l d r De Db D IH]; intros n acc rest Hr Hk Hc Hn.
    - destruct n; [lia|]. cbn [app branches]. rewrite app_nil_r. destruct rest; [discriminate|].
      cbn in Hk. now rewrite Hk.
    - destruct n; [lia|]. cbn [app] in *. assoc. cbn [branches]. rewrite Kk.
      rewrite (parse_expression_reads _ _ (KThen :: b ++ d ++ rest) De); [|cbn; lia].
      rewrite ptry_ret. cbn [List.length] in *.
      rewrite (block_complete _ Es _ _ Db); [|eapply head_branches; eauto|len|len].
      rewrite ptry_ret, IH; auto; [now rewrite <- app_assoc|len|len].
  Qed.
  Lemma stmt_branches_complete : forall ts l, g_branches false false G KElseIf ts l ->
    forall n acc rest, head_is is_else_or_end rest = true ->
    List.length (ts ++ rest) < c -> List.length (ts ++ rest) < n ->
    stmt_branches item n acc (ts ++ rest) = ret (acc ++ l) rest.
  Proof.
    intros ts l D. induction D as [|a e b l d r De Db D IH]; intros n acc rest Hr Hc Hn.
    - destruct n; [lia|]. cbn [app stmt_branches]. rewrite app_nil_r. now rewrite Hr.
    - destruct n; [lia|]. cbn [app] in *. assoc. cbn [stmt_branches head_is is_else_or_end].
      rewrite (parse_expression_reads _ _ (KThen :: b ++ d ++ rest) De); [|cbn; lia].
      rewrite ptry_ret. cbn [List.length] in *.
      assert (Hr' : head_is if_stop rest = true).
      { destruct rest as [|t rest]; [discriminate|]. destruct t; auto; discriminate. }
      rewrite (block_complete _ if_stop_item _ _ Db);
        [|exact (head_branches if_stop KElseIf _ _ _ eq_refl D Hr')|len|len].
      rewrite ptry_ret, IH; auto; [now rewrite <- app_assoc|len|len].
  Qed.
  Lemma else_complete : forall ts o, g_else_block G ts o -> forall n rest, head_is end_stop rest = true ->
    List.length (ts ++ rest) < c -> List.length (ts ++ rest) < n ->
    else_block item n (ts ++ rest) = ret o rest.
  Proof.
    intros ts o D n rest Hr Hc Hn. destruct D as [|b l D].
    - cbn [app]. destruct rest as [|t rest]; [discriminate|]. destruct t; try discriminate. reflexivity.
    - cbn [app else_block List.length] in *. rewrite (block_complete _ end_stop_item _ _ D); auto; lia.
  Qed.
  Lemma else_head : forall ts o rest, g_else_block G ts o -> head_is end_stop rest = true ->
    head_is is_else_or_end (ts ++ rest) = true /\ head_is if_stop (ts ++ rest) = true /\
    head_is when_stop (ts ++ rest) = true /\ head_is is_elseif (ts ++ rest) = false /\
    head_is is_elsewhen (ts ++ rest) = false.
  Proof.
    intros ts o rest D Hr. destruct D; cbn [app]; auto.
    destruct rest as [|t rest]; [discriminate|]. destruct t; try discriminate. auto.
  Qed.
End BlocksComplete.

Lemma simple_starts : forall ts x, simple false false ts x -> starts 2 ts.
Proof. intros ts x [d D]. eapply b_simple; eauto. Qed.
Lemma simple_expr : forall fl rx ts x, simple fl rx ts x -> g_expr fl rx ts x.
Proof. intros fl rx ts x [d D]. exists (S d). now constructor. Qed.
Lemma forIndices_complete : forall ts ix rest, g_indices (E false false) ts ix -> ok_index rest -> no_comma rest ->
  r_forIndices (ts ++ rest) = ret ix rest.
Proof.
  intros ts ix rest D Ok NC. unfold r_forIndices, rounds.
  apply (c_forIndices parse_expression _ (S (List.length (ts ++ rest))) _ (parse_expression_complete _)); auto; lia.
Qed.

Definition ends_equation (rest : list tk) : Prop :=
  stop 8 rest /\ match rest with KStr _ :: _ => False | _ => True end.

Lemma equation_starts : forall d ts x, g_equation_depth false false d ts x -> starts_item ts.
Proof.
  intros d ts x D. destruct d; [destruct D|]. cbn [g_equation_depth] in D.
  destruct D; try discriminate; try reflexivity.
  apply starts_item_app. apply (starts_start 2); [lia|]. eapply simple_starts; eauto.
Qed.
Theorem equation_complete : forall d n,
  complete (equation_fuel n) (g_equation_depth false false d) ends_equation n.
Proof.
  induction d; intros n ts x rest D Hok Hn; [destruct D|]. destruct n; [lia|].
  cbn [g_equation_depth] in D. cbn [equation_fuel].
  pose proof (IHd n) as CI. pose proof (equation_starts d) as BI.
  assert (OS : forall r, ends_equation (KSemi :: r)) by (intros r; split; cbn; auto).
  destruct D as [a y b z c Da Db Dc|a y b l c br d' o Da Db Dbr Hbr Do|a ix b l Da Db|a y b l c br Ab|a y b l d' o Ab];
    try discriminate.
  - assert (Q : ptry (parse_expression ((a ++ KAssign :: b ++ c) ++ rest)) (fun a r =>
      match r with
      | KAssign :: r1 =>
          ptry (parse_expression r1) (fun b r2 =>
            ret (QEq a b) (match r2 with KStr _ :: r3 => r3 | _ => r2 end))
      | _ => Ok None
      end) = ret (QEq y z) rest).
    { assoc. rewrite (parse_expression_reads _ _ _ (simple_expr _ _ _ _ Da)); [|cbn; lia].
      rewrite ptry_ret. destruct Hok as [Hok Hok'].
      rewrite (parse_expression_reads _ _ (c ++ rest) Db); [|destruct Dc; [exact Hok|cbn; lia]].
      rewrite ptry_ret. destruct Dc; [|reflexivity]. cbn [app].
      destruct rest as [|t rest]; auto. destruct t; auto. destruct Hok'. }
    apply simple_starts in Da. destruct a as [|t a]; [destruct Da|]. cbn [app] in *. unfold q_equation.
    destruct t; try exact Q; cbn in Da; lia.
  - destruct Hbr as [Ab|Hbr]; [discriminate|]. subst br. inversion Dbr. subst c.
    cbn [app q_equation] in *. unfold q_if. assoc. cbn [List.length] in Hn.
    rewrite (parse_expression_reads _ _ _ Da); [|cbn; lia].
    rewrite ptry_ret.
    destruct (else_head _ d' o (KEnd :: KIf :: rest) Do eq_refl) as (_ & H1 & _ & H2 & _).
    rewrite (block_complete _ _ _ _ CI OS BI _ if_stop_item _ _ Db); [|exact H1|len|len].
    rewrite ptry_ret.
    pose proof (branches_complete _ _ _ _ CI OS BI if_stop is_elseif KElseIf if_stop_item eq_refl eq_refl [] [] (gbr_nil _ _ _ _) (S n) []
      (d' ++ KEnd :: KIf :: rest) H1 H2) as Q.
    cbn [app] in Q. rewrite Q; [|len|len]. rewrite ptry_ret.
    rewrite (else_complete _ _ _ _ CI OS BI _ _ Do); [|reflexivity|len|len]. reflexivity.
  - cbn [app q_equation] in *. unfold q_for. assoc. cbn [List.length] in Hn.
    rewrite (forIndices_complete _ _ _ Da); [|split; cbn; auto|exact I]. rewrite ptry_ret.
    rewrite (block_complete _ _ _ _ CI OS BI _ end_stop_item _ _ Db); [|reflexivity|len|len]. reflexivity.
Qed.

Lemma reference_complete : forall ts e rest, g_reference true (E false false) ts e -> not_subs rest ->
  match rest with KDot :: _ => False | _ => True end -> r_reference (ts ++ rest) = ret e rest.
Proof.
  intros ts e rest D Ok Ok'. unfold r_reference, rounds.
  apply (any_reference_complete parse_expression _ (S (List.length (ts ++ rest))) _ (parse_expression_complete _)
    g_expr_starts); auto; lia.
Qed.
Lemma reference_starts : forall E ts e, g_reference true E ts e -> exists t u, ts = t :: u /\ (t = KDot \/ exists s, t = KIdent s).
Proof.
  intros E ts e D. destruct D as [ts l D|ts l _ D]; [|eauto].
  destruct D as [ts x D|ts x ts' l D Ds]; destruct D; cbn; do 2 eexists; (split; [reflexivity|eauto]).
Qed.
Lemma statement_starts : forall d ts x, g_statement_depth false false d ts x -> starts_item ts.
Proof.
  intros d ts x D. destruct d; [destruct D|]. cbn [g_statement_depth] in D.
  destruct D as [a f b e Da Db|a f b l Da Db| | | | | | | | |]; try discriminate; try reflexivity;
    destruct (reference_starts _ _ _ Da) as (t & u & -> & [->|[s ->]]); reflexivity.
Qed.
Theorem statement_complete : forall d n,
  complete (statement_fuel n) (g_statement_depth false false d) (stop 8) n.
Proof.
  induction d; intros n ts x rest D Hok Hn; [destruct D|]. destruct n; [lia|].
  cbn [g_statement_depth] in D. cbn [statement_fuel].
  pose proof (IHd n) as CI. pose proof (statement_starts d) as BI.
  assert (OS : forall r, stop 8 (KSemi :: r)) by (intros r; cbn; auto).
  assert (R : forall ts f t r, g_reference true (E false false) ts f ->
    z_statement (statement_fuel n) (S n) (ts ++ t :: r) = z_reference (ts ++ t :: r)).
  { intros ts' f t r Df. destruct (reference_starts _ _ _ Df) as (t' & u & -> & [->|[s ->]]); reflexivity. }
  destruct D as [a f b e Da Db|a f b l Da Db|a f Ab|a l b f c args Da Db Dc| | |a y b l c br d' o Da Db Dbr Do
    |a ix b l Da Db|a y b l Da Db|a y b l Ab|a y b l Ab]; try discriminate; try reflexivity.
  - assoc. rewrite (R _ _ _ _ Da). unfold z_reference.
    rewrite (reference_complete _ _ _ Da); try exact I. rewrite ptry_ret.
    rewrite (parse_expression_reads _ _ rest Db); [reflexivity|exact Hok].
  - assoc. rewrite (R _ _ _ _ Da). unfold z_reference.
    rewrite (reference_complete _ _ _ Da); try exact I. rewrite ptry_ret. unfold r_arguments, rounds.
    rewrite (c_arguments parse_expression _ (S (List.length (b ++ KRPar :: rest))) _ (parse_expression_complete _)
      g_expr_starts g_expr_named (Nat.lt_succ_diag_r _) _ _ Db); [reflexivity|lia].
  - cbn [app z_statement]. unfold z_tuple. assoc.
    assert (Q : r_outputs (a ++ KRPar :: KAssignOp :: b ++ c ++ rest) = ret l (KRPar :: KAssignOp :: b ++ c ++ rest)).
    { unfold r_outputs, rounds. destruct Da as [[-> ->]|Da]; [reflexivity|].
      rewrite (c_outputs parse_expression _ (S (List.length (a ++ KRPar :: KAssignOp :: b ++ c ++ rest))) _
        (parse_expression_complete _) g_expr_starts (Nat.lt_succ_diag_r _) _ _ Da); [reflexivity|lia|lia]. }
    rewrite Q, ptry_ret.
    rewrite (reference_complete _ _ (c ++ rest) Db); try (destruct Dc; exact I). rewrite ptry_ret.
    unfold r_callArgs, rounds.
    rewrite (c_call parse_expression _ (S (List.length (c ++ rest))) _ (parse_expression_complete _)
      g_expr_starts g_expr_named (Nat.lt_succ_diag_r _) _ _ rest Dc I); [reflexivity|lia].
  - cbn [app z_statement] in *. unfold z_if. assoc. cbn [List.length] in Hn.
    rewrite (parse_expression_reads _ _ _ Da); [|cbn; lia].
    rewrite ptry_ret.
    destruct (else_head _ d' o (KEnd :: KIf :: rest) Do eq_refl) as (H0 & H1 & _).
    rewrite (block_complete _ _ _ _ CI OS BI _ if_stop_item _ _ Db);
      [|exact (head_branches _ if_stop KElseIf _ _ _ eq_refl Dbr H1)|len|len].
    rewrite ptry_ret.
    rewrite (stmt_branches_complete _ _ _ _ CI OS BI _ _ Dbr); [|exact H0|len|len]. rewrite ptry_ret.
    rewrite (else_complete _ _ _ _ CI OS BI _ _ Do); [|reflexivity|len|len]. reflexivity.
  - cbn [app z_statement] in *. unfold z_for. assoc. cbn [List.length] in Hn.
    rewrite (forIndices_complete _ _ _ Da); [|split; cbn; auto|exact I]. rewrite ptry_ret.
    rewrite (block_complete _ _ _ _ CI OS BI _ end_stop_item _ _ Db); [|reflexivity|len|len]. reflexivity.
  - cbn [app z_statement] in *. unfold z_while. assoc. cbn [List.length] in Hn.
    rewrite (parse_expression_reads _ _ _ Da); [|cbn; lia]. rewrite ptry_ret.
    rewrite (block_complete _ _ _ _ CI OS BI _ end_stop_item _ _ Db); [|reflexivity|len|len]. reflexivity.
Qed.

(** * The parser ends *)
Lemma equation_tokens : forall fl rx G ts x, g_equation fl rx G ts x -> ts <> [].
Proof. intros fl rx G ts x D. destruct D; try discriminate. destruct a; discriminate. Qed.
Lemma statement_tokens : forall fl rx G ts x, g_statement fl rx G ts x -> ts <> [].
Proof. intros fl rx G ts x D. destruct D; try discriminate; destruct a; discriminate. Qed.
Lemma equation_progress : forall n, progress (equation_fuel n).
Proof.
  intros n. apply (sound_progress _ _ _ (equation_sound n)). intros ts x D.
  destruct n; [destruct D|]. eapply equation_tokens; eauto.
Qed.
Lemma statement_progress : forall n, progress (statement_fuel n).
Proof.
  intros n. apply (sound_progress _ _ _ (statement_sound n)). intros ts x D.
  destruct n; [destruct D|]. eapply statement_tokens; eauto.
Qed.
Lemma sound_le : forall A (p : list tk -> pres A) G, sound p G -> forall ts x r, p ts = ret x r ->
  List.length r <= List.length ts.
Proof. intros A p G S ts x r H. destruct (S _ _ _ H) as (u & -> & _). rewrite app_length. lia. Qed.

Section BlocksFine.
  Context {A : Type}.
  Variable item : list tk -> pres A.
  Variable G : list tk -> A -> Prop.
  Variable c : nat.
  Hypothesis SI : sound item G.
  Hypothesis FI : fine c item.
  Hypothesis PI : progress item.
  Lemma block_fine : forall sp n acc ts, List.length ts < c -> List.length ts < n ->
    block item sp n acc ts <> NoFuel.
  Proof.
    intros sp. induction n; intros acc ts Hc Hn; [lia|]. cbn [block].
    destruct (head_is sp ts); [discriminate|]. apply ptry_fine; [now apply FI|].
    intros x r H. apply PI in H. destruct r as [|t r]; [discriminate|]. destruct t; try discriminate.
    cbn in H. apply IHn; lia.
  Qed.
  Lemma block_le : forall sp n acc ts l r, block item sp n acc ts = ret l r -> List.length r <= List.length ts.
  Proof.
    intros sp n acc ts l r H. destruct (block_sound _ _ _ SI _ _ _ _ _ H) as (u & l' & -> & _). rewrite app_length. lia.
  Qed.
  Lemma branches_fine : forall sp key n acc ts, List.length ts < c -> List.length ts < n ->
    branches item sp key n acc ts <> NoFuel.
  Proof.
    intros sp key. induction n; intros acc ts Hc Hn; [lia|]. cbn [branches].
    destruct ts as [|t ts]; [discriminate|]. destruct (key t); [|discriminate]. cbn [List.length] in *.
    apply ptry_fine; [apply (parse_expression_fine (S (List.length ts))); lia|].
    intros x r H. apply parse_expression_progress in H. destruct r as [|t' r]; [discriminate|].
    destruct t'; try discriminate. cbn [List.length] in *. apply ptry_fine; [apply block_fine; lia|].
    intros l r1 H1. apply block_le in H1. apply IHn; lia.
  Qed.
  Lemma stmt_branches_fine : forall n acc ts, List.length ts < c -> List.length ts < n ->
    stmt_branches item n acc ts <> NoFuel.
  Proof.
    induction n; intros acc ts Hc Hn; [lia|]. cbn [stmt_branches].
    destruct (head_is is_else_or_end ts); [discriminate|].
    destruct ts as [|t ts]; [discriminate|]. destruct t; try discriminate. cbn [List.length] in *.
    apply ptry_fine; [apply (parse_expression_fine (S (List.length ts))); lia|].
    intros x r H. apply parse_expression_progress in H. destruct r as [|t' r]; [discriminate|].
    destruct t'; try discriminate. cbn [List.length] in *. apply ptry_fine; [apply block_fine; lia|].
    intros l r1 H1. apply block_le in H1. apply IHn; lia.
  Qed.
  Lemma branches_le : forall sp key k, (forall t, key t = true -> t = k) ->
    forall n acc ts l r, branches item sp key n acc ts = ret l r -> List.length r <= List.length ts.
  Proof.
    intros sp key k SK n acc ts l r H.
    destruct (branches_sound _ _ _ _ _ SI SK _ _ _ _ _ H) as (u & l' & -> & _). rewrite app_length. lia.
  Qed.
  Lemma stmt_branches_le : forall n acc ts l r, stmt_branches item n acc ts = ret l r ->
    List.length r <= List.length ts.
  Proof.
    intros n acc ts l r H.
    destruct (stmt_branches_sound _ _ SI _ _ _ _ _ H) as (u & l' & -> & _). rewrite app_length. lia.
  Qed.
  Lemma else_fine : forall n ts, List.length ts < c -> List.length ts < n -> else_block item n ts <> NoFuel.
  Proof.
    intros n ts Hc Hn. destruct ts as [|t ts]; [discriminate|]. destruct t; try discriminate.
    cbn [else_block List.length] in *. apply ptry_fine; [apply block_fine; lia|discriminate].
  Qed.
End BlocksFine.

Lemma forIndices_fine : forall ts, r_forIndices ts <> NoFuel.
Proof.
  intros ts. unfold r_forIndices, rounds.
  apply (f_forIndices parse_expression _ (S (List.length ts)) _ parse_expression_sound
    (parse_expression_fine _)); lia.
Qed.
Lemma reference_fine : forall ts, r_reference ts <> NoFuel.
Proof.
  intros ts. unfold r_reference, rounds.
  apply (f_reference parse_expression _ (S (List.length ts)) _ parse_expression_sound (g_expr_tokens _ _)
    (parse_expression_fine _)); lia.
Qed.
Lemma arguments_fine : forall ts, r_arguments ts <> NoFuel.
Proof.
  intros ts. unfold r_arguments, rounds.
  apply (f_arguments parse_expression _ (S (List.length ts)) _ parse_expression_sound (g_expr_tokens _ _)
    (parse_expression_fine _)); lia.
Qed.
Lemma callArgs_fine : forall ts, r_callArgs ts <> NoFuel.
Proof.
  intros ts. unfold r_callArgs, rounds.
  apply (f_call parse_expression _ (S (List.length ts)) _ parse_expression_sound (g_expr_tokens _ _)
    (parse_expression_fine _)); lia.
Qed.
Lemma outputs_fine : forall ts, r_outputs ts <> NoFuel.
Proof.
  intros ts. unfold r_outputs, rounds.
  apply (f_outputs parse_expression (S (S (List.length ts))) (S (List.length ts)) _ parse_expression_sound (g_expr_tokens _ _)
    (parse_expression_fine _)); lia.
Qed.
Lemma made_fine : forall A (l : list (list A)) B (x : B) v i ts, made (set_branches v i l) x ts <> NoFuel.
Proof.
  intros A l B x. induction l; intros v i ts; cbn [set_branches]; [discriminate|].
  destruct (Nat.ltb i (List.length v)); [apply IHl|discriminate].
Qed.
Ltac keyed :=
  match goal with
  | |- match ?r with _ => _ end <> NoFuel =>
      destruct r as [|? ?]; [discriminate|];
      match goal with |- match ?t with _ => _ end <> NoFuel => destruct t; try discriminate end
  end; cbn [List.length] in *.
Ltac expression_fine :=
  apply ptry_fine; [eapply parse_expression_fine; apply Nat.lt_succ_diag_r|];
  let x := fresh "x" in let r := fresh "r" in let H := fresh "Q" in
  intros x r H; apply parse_expression_progress in H.

Theorem equation_fine : forall n, fine n (equation_fuel n).
Proof.
  induction n; intros ts Hn; [lia|]. cbn [equation_fuel].
  pose proof (equation_sound n) as SI. pose proof (equation_progress n) as PI. rename IHn into FI.
  assert (Eq : ptry (parse_expression ts) (fun a r =>
      match r with
      | KAssign :: r1 =>
          ptry (parse_expression r1) (fun b r2 =>
            ret (QEq a b) (match r2 with KStr _ :: r3 => r3 | _ => r2 end))
      | _ => Ok None
      end) <> NoFuel).
  { expression_fine. keyed. expression_fine. discriminate. }
  destruct ts as [|t ts]; [exact Eq|]. cbn [List.length] in Hn.
  destruct t; try exact Eq; cbn [q_equation]; clear Eq.
  - unfold q_if. expression_fine. keyed.
    apply ptry_fine; [apply (block_fine _ _ FI PI); lia|]. intros b r1 Q1. apply (block_le _ _ SI) in Q1.
    apply ptry_fine; [apply (branches_fine _ _ _ SI FI PI); lia|]. intros br r2 Q2.
    apply (branches_le _ _ SI _ _ _ is_elseif_eq) in Q2.
    apply ptry_fine; [apply (else_fine _ _ FI PI); lia|]. intros o r3 _.
    keyed. keyed. apply made_fine.
  - unfold q_for. apply ptry_fine; [apply forIndices_fine|]. intros ix r Q. apply (sound_le _ _ _ s_forIndices_r) in Q.
    keyed. apply ptry_fine; [apply (block_fine _ _ FI PI); lia|]. intros b r1 _. keyed. keyed.
  - unfold q_when. expression_fine. keyed.
    apply ptry_fine; [apply (block_fine _ _ FI PI); lia|]. intros b r1 Q1. apply (block_le _ _ SI) in Q1.
    apply ptry_fine; [apply (branches_fine _ _ _ SI FI PI); lia|]. intros br r2 Q2.
    apply (branches_le _ _ SI _ _ _ is_elsewhen_eq) in Q2.
    apply ptry_fine; [apply (else_fine _ _ FI PI); lia|]. intros o r3 _.
    keyed. keyed. apply made_fine.
Qed.
Theorem statement_fine : forall n, fine n (statement_fuel n).
Proof.
  induction n; intros ts Hn; [lia|]. cbn [statement_fuel].
  pose proof (statement_sound n) as SI. pose proof (statement_progress n) as PI. rename IHn into FI.
  assert (R : z_reference ts <> NoFuel).
  { unfold z_reference. apply ptry_fine; [apply reference_fine|]. intros f r _. keyed.
    - apply ptry_fine; [apply arguments_fine|]. intros l r1 _. keyed.
    - expression_fine. discriminate. }
  destruct ts as [|t ts]; [exact R|]. cbn [List.length] in Hn.
  destruct t; try exact R; cbn [z_statement]; clear R; try discriminate.
  - unfold z_if. expression_fine. keyed.
    apply ptry_fine; [apply (block_fine _ _ FI PI); lia|]. intros b r1 Q1. apply (block_le _ _ SI) in Q1.
    apply ptry_fine; [apply (stmt_branches_fine _ _ _ SI FI PI); lia|]. intros br r2 Q2.
    apply (stmt_branches_le _ _ SI) in Q2.
    apply ptry_fine; [apply (else_fine _ _ FI PI); lia|]. intros o r3 _. keyed. keyed.
  - unfold z_for. apply ptry_fine; [apply forIndices_fine|]. intros ix r Q. apply (sound_le _ _ _ s_forIndices_r) in Q.
    keyed. apply ptry_fine; [apply (block_fine _ _ FI PI); lia|]. intros b r1 _. keyed. keyed.
  - unfold z_tuple. apply ptry_fine; [apply outputs_fine|]. intros l r _. keyed. keyed.
    apply ptry_fine; [apply reference_fine|]. intros f r1 _.
    apply ptry_fine; [apply callArgs_fine|]. intros; discriminate.
  - unfold z_while. expression_fine. keyed.
    apply ptry_fine; [apply (block_fine _ _ FI PI); lia|]. intros b r1 _. keyed. keyed.
  - unfold z_when. expression_fine. keyed.
    apply ptry_fine; [apply (block_fine _ _ FI PI); lia|]. intros b r1 _. keyed. keyed.
Qed.
