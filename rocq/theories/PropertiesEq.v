(** * Properties of the passes on equations: C93 to C97

    The passes that cut equations, restrict them and substitute one into another
    ([EqModel.v]) against scalar equations, their solutions and their matches
    ([EqSpec.v]). *)
From Coq Require Import ZArith List Bool Arith Lia Permutation.
From Verif Require Import RangeModel MDRangeModel BoxSetModel BoxSetProofs Spec Result AccessModel EqModel EqSpec
  EqSubstProofs EqSplitProofs EqSCCProofs.
Import ListNotations.
Local Open Scope Z_scope.

(** Equations for the examples: variables x, y, z are numbered 0, 1, 2. *)
Definition ix (c : Z) : sub := SDim 0 c.
Definition box1 (a b : Z) : mdrange := [mkRange a b].
(** x[i] = x[i] + x[3] at 0..3, matched with x[0..3] by its left side. *)
Definition eq_last : inst :=
  mkInst (mkTmpl 1 (EAcc 0 [ix 0]) (EBin 0 (EAcc 0 [ix 0]) (EAcc 0 [SCst 3])))
    [box1 0 4] (Some (0%nat, [box1 0 4])).
Definition left_x : access := mkAcc true [] 0 [ix 0].

Ltac points := repeat match goal with
  | H : in_boxes _ _ |- _ => apply in_bs_points in H; cbn in H
  | H : _ \/ _ |- _ => destruct H
  | H : False |- _ => destruct H
  end; subst.

(** ** C93: the cut by accesses *)

(** The parts have the iterations of the original, each in exactly one part,
    and the same sides, whether or not the assertions are compiled in. *)
Theorem C93_cut_keeps_iterations : forall checks i is,
  (1 <= t_rank (i_tmpl i))%nat -> wf_inst i -> access_split checks i = Ok is ->
  cuts (map i_idx is) (i_idx i) /\ Forall (fun n => i_tmpl n = i_tmpl i) is.
Proof. exact access_split_iterations. Qed.
Print Assumptions C93_cut_keeps_iterations.

Theorem C93_cut_keeps_solutions : forall M checks i is,
  (1 <= t_rank (i_tmpl i))%nat -> wf_inst i -> access_split checks i = Ok is ->
  same_solutions M [i] is.
Proof.
  intros M checks i is L W H. destruct (access_split_iterations checks i is L W H).
  apply cuts_solutions; auto.
Qed.
Print Assumptions C93_cut_keeps_solutions.

(** If the accesses are orderly, no assertion fails, each part determines by the
    same access as before the elements it is matched with, and these cut the
    match.
    Partial: the accesses must be orderly; the refutations below show what
    happens otherwise. *)
Theorem C93_cut_keeps_match_partial : forall checks i v m k a0,
  (1 <= t_rank (i_tmpl i))%nat -> wf_inst i -> arity (i_tmpl i) v k -> Forall (box_of k) m ->
  In a0 (t_accs (i_tmpl i)) -> a_var a0 = v -> matched_by (a_fun a0) i v m ->
  orderly i v m (a_fun a0) ->
  exists is ms, access_split checks i = Ok is /\
    Forall2 (fun n mn => matched_by (a_fun a0) n v mn) is ms /\ cuts ms m.
Proof. exact access_split_match. Qed.
Print Assumptions C93_cut_keeps_match_partial.

Lemma eq_last_wf : wf_inst eq_last.
Proof.
  cbn. split; [|discriminate]. repeat constructor; cbn; discriminate.
Qed.
Lemma reaches_points : forall f s q, reaches f s q <-> In q (map (fun p => map (sub_at p) f) (bs_points s)).
Proof.
  intros f s q. rewrite in_map_iff. unfold reaches. split.
  - intros (p & Hp & ->). exists p. rewrite in_bs_points. auto.
  - intros (p & <- & Hp). exists p. rewrite in_bs_points in Hp. auto.
Qed.
Example C93_example :
  wf_inst eq_last /\ arity (i_tmpl eq_last) 0 1 /\ Forall (box_of 1) [box1 0 4] /\
  In left_x (t_accs (i_tmpl eq_last)) /\ matched_by (a_fun left_x) eq_last 0 [box1 0 4] /\
  orderly eq_last 0 [box1 0 4] (a_fun left_x) /\
  (exists is, access_split true eq_last = Ok is /\ length is = 2%nat).
Proof.
  split; [exact eq_last_wf|]. split.
  { split; [lia|]. cbn. intros a [<-|[<-|[<-|[]]]] _; auto. }
  split; [repeat constructor; cbn; discriminate|]. split; [cbn; auto|]. split.
  { split; auto. intros q. rewrite reaches_points, <- in_bs_points. cbn. tauto. }
  split.
  - intros e b He (Hb & _ & _) Hr c (Hc & _ & _). rewrite !reaches_points in *.
    apply in_bs_points in He. cbn in He, Hb, Hc.
    destruct Hb as [<-|[<-|[<-|[]]]]; destruct Hc as [<-|[<-|[<-|[]]]];
      destruct He as [<-|[<-|[<-|[<-|[]]]]]; vm_compute in Hr |- *; intuition (try congruence; try discriminate).
  - eexists. split; [vm_compute; reflexivity|reflexivity].
Qed.

(** x[i] = x[1-i] + x[0] at 0, 1: the program is correct Modelica as far as the
    matching goes (the left side determines x[0] and x[1]), and an assertion
    fails. *)
Definition eq_swap : inst :=
  mkInst (mkTmpl 1 (EAcc 0 [ix 0]) (EBin 0 (EAcc 0 [SAff (-1) 0 1]) (EAcc 0 [SCst 0])))
    [box1 0 2] (Some (0%nat, [box1 0 2])).
Theorem C93_cut_assertion_refuted :
  wf_inst eq_swap /\ arity (i_tmpl eq_swap) 0 1 /\ matched_by [ix 0] eq_swap 0 [box1 0 2] /\
  access_split true eq_swap = Bad.
Proof.
  split; [cbn; split; [repeat constructor; cbn; discriminate|discriminate]|]. split.
  { split; [lia|]. cbn. intros a [<-|[<-|[<-|[]]]] _; auto. }
  split; [|reflexivity].
  split; auto. intros q. rewrite reaches_points, <- in_bs_points. cbn. tauto.
Qed.
Print Assumptions C93_cut_assertion_refuted.

(** x[i] = x[3-i] + x[0] at 0..3: without assertions, a part is matched with no
    element, although each iteration determines one. *)
Definition eq_mirror : inst :=
  mkInst (mkTmpl 1 (EAcc 0 [ix 0]) (EBin 0 (EAcc 0 [SAff (-1) 0 3]) (EAcc 0 [SCst 0])))
    [box1 0 4] (Some (0%nat, [box1 0 4])).
Theorem C93_match_lost_refuted :
  wf_inst eq_mirror /\ arity (i_tmpl eq_mirror) 0 1 /\ matched_by [ix 0] eq_mirror 0 [box1 0 4] /\
  exists is n, access_split false eq_mirror = Ok is /\ In n is /\
    (exists p, In p (iterations n)) /\ i_match n = Some (0%nat, []).
Proof.
  split; [cbn; split; [repeat constructor; cbn; discriminate|discriminate]|]. split.
  { split; [lia|]. cbn. intros a [<-|[<-|[<-|[]]]] _; auto. }
  split.
  { split; auto. intros q. rewrite reaches_points, <- in_bs_points. cbn. tauto. }
  eexists _, _. split; [vm_compute; reflexivity|]. split; [right; left; reflexivity|].
  split; [|reflexivity]. exists [0]. vm_compute. auto.
Qed.
Print Assumptions C93_match_lost_refuted.

(** ** C94: scalar ranges and single-valued inductions *)

(** The same scalar equations, each as often as before. *)
Theorem C94_scalar_ranges : forall i is,
  (1 <= t_rank (i_tmpl i))%nat -> disj (i_idx i) -> scalar_split i = Ok is ->
  Permutation (flat_map scalars is) (scalars i).
Proof. exact scalar_split_scalars. Qed.
Print Assumptions C94_scalar_ranges.

(** Partial: when the pass ends, see [C94_single_valued_refuted]. *)
Theorem C94_single_valued_partial : forall i is,
  (1 <= t_rank (i_tmpl i))%nat -> wf_inst i -> disj (i_idx i) -> svie i = Ok is ->
  Permutation (flat_map scalars is) (scalars i).
Proof. exact svie_scalars. Qed.
Print Assumptions C94_single_valued_partial.
(** It ends on equations that are not matched. *)
Theorem C94_single_valued_unmatched : forall i, i_match i = None -> exists is, svie i = Ok is.
Proof. exact svie_unmatched. Qed.
Print Assumptions C94_single_valued_unmatched.

(** x[i, j] = i * y[j] on three ranges. *)
Definition eq_two : inst :=
  mkInst (mkTmpl 2 (EAcc 0 [SDim 0 0; SDim 1 0]) (EBin 1 (EIdx (SDim 0 0)) (EAcc 1 [SDim 1 0])))
    [[mkRange 7 8; mkRange 0 2]; [mkRange 0 1; mkRange 5 6]; [mkRange 2 4; mkRange 2 4]] None.
Lemma eq_two_disj : disj (i_idx eq_two).
Proof.
  cbn. unfold disj. repeat first [apply FOP_cons|apply FOP_nil|apply Forall_cons|apply Forall_nil];
    intros p [H1 H2]; apply in_box_points in H1, H2; vm_compute in H1, H2; intuition congruence.
Qed.
Example C94_example : wf_inst eq_two /\ disj (i_idx eq_two) /\
  (exists is, scalar_split eq_two = Ok is /\ length is = 2%nat) /\
  (exists is, svie eq_two = Ok is /\ length is = 3%nat /\ length (flat_map scalars is) = 7%nat).
Proof.
  split; [cbn; split; [repeat constructor; cbn; discriminate|discriminate]|].
  split; [exact eq_two_disj|]. split; eexists; (split; [vm_compute; reflexivity|]); auto.
Qed.

(** x[i, j] = y[j] with i = 7 and j in 0..4, matched with x[7, 0..4]: the new
    equation is asked for its write accesses while it has still the indices of
    the old one, of another rank, and there are none. *)
Definition eq_seven : inst :=
  mkInst (mkTmpl 2 (EAcc 0 [SDim 0 0; SDim 1 0]) (EAcc 1 [SDim 1 0]))
    [[mkRange 7 8; mkRange 0 5]] (Some (0%nat, [[mkRange 7 8; mkRange 0 5]])).
Theorem C94_single_valued_refuted :
  wf_inst eq_seven /\ disj (i_idx eq_seven) /\
  matched_by [SDim 0 0; SDim 1 0] eq_seven 0 [[mkRange 7 8; mkRange 0 5]] /\ svie eq_seven = Bad.
Proof.
  split; [cbn; split; [repeat constructor; cbn; discriminate|discriminate]|].
  split; [apply disj_single|]. split; [|reflexivity].
  split; auto. intros q. rewrite reaches_points, <- in_bs_points. cbn. tauto.
Qed.
Print Assumptions C94_single_valued_refuted.

(** ** C95: the match of a restricted equation *)

(** Restricting an equation never fails, gives the iterations asked for, and
    the new match is made of the elements that, from these iterations, all the
    accesses within the old match reach. *)
Theorem C95_restriction : forall i v m k a0 s,
  (1 <= t_rank (i_tmpl i))%nat -> wf_inst i -> arity (i_tmpl i) v k ->
  In a0 (t_accs (i_tmpl i)) -> a_var a0 = v -> matched_by (a_fun a0) i v m ->
  Forall (box_of (t_rank (i_tmpl i))) s -> (forall p, in_boxes p s -> in_boxes p (i_idx i)) ->
  exists r mr, set_indices i s [] = Ok r /\ i_tmpl r = i_tmpl i /\
    (forall p, in_boxes p (i_idx r) <-> in_boxes p s) /\ i_match r = Some (v, mr) /\
    (forall q, in_boxes q mr <-> exists a, within i v m a /\ reaches (a_fun a) s q).
Proof. exact set_indices_match. Qed.
Print Assumptions C95_restriction.

(** So the match is restricted as it should be exactly when the other accesses
    within the match reach no more.
    Partial: under that condition. *)
Theorem C95_restriction_match_partial : forall i v m k a0 s r,
  (1 <= t_rank (i_tmpl i))%nat -> wf_inst i -> arity (i_tmpl i) v k ->
  In a0 (t_accs (i_tmpl i)) -> a_var a0 = v -> matched_by (a_fun a0) i v m ->
  Forall (box_of (t_rank (i_tmpl i))) s -> (forall p, in_boxes p s -> in_boxes p (i_idx i)) ->
  set_indices i s [] = Ok r ->
  ((exists mr, matched_by (a_fun a0) r v mr) <->
   forall a q, within i v m a -> reaches (a_fun a) s q -> reaches (a_fun a0) s q).
Proof.
  intros i v m k a0 s r L W AR H0 V0 MB BS HS H.
  destruct (set_indices_match i v m k a0 s L W AR H0 V0 MB BS HS) as (r' & mr & H' & T & I & MR & MS).
  rewrite H in H'. injection H' as <-.
  assert (W0 : within i v m a0). { split; auto. split; auto. intros q. apply MB. }
  assert (RR : forall q, reaches (a_fun a0) (i_idx r) q <-> reaches (a_fun a0) s q).
  { intros q. split; intros (p & Hp & ->); exists p; split; auto; apply I; auto. }
  split.
  - intros (mr' & E & K) a q Ha Hq. rewrite MR in E. injection E as <-. apply RR, K, MS. eauto.
  - intros K. exists mr. split; auto. intros q. rewrite RR, MS. split; [|eauto].
    intros (a & Ha & Hq). eauto.
Qed.
Print Assumptions C95_restriction_match_partial.

(** Both passes that cut ranges restrict with the write accesses they have
    asked for, which is the same. *)
Theorem C95_given_accesses : forall i s, set_indices i s (write_accesses i) = set_indices i s [].
Proof. exact set_indices_given. Qed.
Print Assumptions C95_given_accesses.

Example C95_example : exists r mr, set_indices eq_last [box1 1 3] [] = Ok r /\ i_match r = Some (0%nat, mr) /\
  bs_eq mr [box1 1 4] = true.
Proof. eexists _, _. split; [vm_compute; reflexivity|]. split; reflexivity. Qed.

(** x[i] = y[i], with x[0..3] matched, restricted to 1..2: the condition holds. *)
Definition eq_plain : inst :=
  mkInst (mkTmpl 1 (EAcc 0 [ix 0]) (EAcc 1 [ix 0])) [box1 0 4] (Some (0%nat, [box1 0 4])).
Example C95_example_plain :
  (forall a q, within eq_plain 0 [box1 0 4] a -> reaches (a_fun a) [box1 1 3] q -> reaches [ix 0] [box1 1 3] q) /\
  exists r, set_indices eq_plain [box1 1 3] [] = Ok r /\ length (iterations r) = 2%nat.
Proof.
  split.
  - intros a q (Ha & Hv & _) Hq. cbn in Ha. destruct Ha as [<-|[<-|[]]]; [exact Hq|discriminate].
  - eexists. split; [vm_compute; reflexivity|reflexivity].
Qed.

(** x[i] = x[1-i] at 0, 1, matched by its left side, restricted to iteration 0:
    the match is still x[0], x[1]. *)
Definition eq_two_swap : inst :=
  mkInst (mkTmpl 1 (EAcc 0 [ix 0]) (EAcc 0 [SAff (-1) 0 1])) [box1 0 2] (Some (0%nat, [box1 0 2])).
Theorem C95_restriction_refuted :
  wf_inst eq_two_swap /\ matched_by [ix 0] eq_two_swap 0 [box1 0 2] /\
  exists r mr, set_indices eq_two_swap [box1 0 1] [] = Ok r /\ i_match r = Some (0%nat, mr) /\
    in_boxes [1] mr /\ ~ reaches [ix 0] (i_idx r) [1].
Proof.
  split; [cbn; split; [repeat constructor; cbn; discriminate|discriminate]|]. split.
  { split; auto. intros q. rewrite reaches_points, <- in_bs_points. cbn. tauto. }
  eexists _, _. split; [vm_compute; reflexivity|]. split; [reflexivity|]. split.
  - apply in_bs_points. vm_compute. auto.
  - rewrite reaches_points. vm_compute. intros [H|[]]. discriminate.
Qed.
Print Assumptions C95_restriction_refuted.

(** ** C96: the replacement of an access *)

(** The inductions of the replacement are those of the iteration that
    determines the element read. *)
Theorem C96_determining_iteration : forall n f g T,
  transformation n f g = Some T -> (n <= length T)%nat ->
  forall e w, length w = n -> map (sub_at e) f = map (sub_at w) g -> map (sub_at e) T = w.
Proof. exact transformation_exact. Qed.
Print Assumptions C96_determining_iteration.

Theorem C96_replacement_equivalent : forall M st t idx a w v g l s t' p q,
  clone_tmpl t idx a w g = Some l -> In (s, t') l ->
  In a (t_accs t) -> t_lhs w = EAcc v g -> a_var a = v ->
  length q = t_rank w -> map (sub_at p) (a_fun a) = map (sub_at q) g ->
  holds_at M st w q ->
  t_rank t' = t_rank t /\ (holds_at M st t' p <-> holds_at M st t p).
Proof. exact clone_tmpl_holds. Qed.
Print Assumptions C96_replacement_equivalent.

(** The replaced iterations are those asked for. *)
Theorem C96_replaced_iterations_partial : forall i d a w g ns,
  (1 <= t_rank (i_tmpl i))%nat -> wf_inst i -> d <> [] ->
  clone_replaced i (Some d) a w g = Ok (Some ns) ->
  forall p, in_boxes p d <-> exists n, In n ns /\ In p (iterations n).
Proof. exact clone_replaced_iterations. Qed.
Print Assumptions C96_replaced_iterations_partial.

(** y[i] = x[i+1] + x[i] and x[i] = 2 * z[i]. *)
Definition reader : inst :=
  mkInst (mkTmpl 1 (EAcc 1 [ix 0]) (EBin 0 (EAcc 0 [ix 1]) (EAcc 0 [ix 0])))
    [box1 0 4] (Some (1%nat, [box1 0 4])).
Definition writer : tmpl := mkTmpl 1 (EAcc 0 [ix 0]) (EBin 1 (ECst 2) (EAcc 2 [ix 0])).
Example C96_example :
  transformation 1 [ix 1] [ix 0] = Some [ix 1] /\
  (exists ns, clone_replaced reader (Some [box1 0 2; box1 3 4]) (mkAcc false [0%nat] 0 [ix 1]) writer [ix 0] = Ok (Some ns)
     /\ length ns = 2%nat).
Proof. split; [reflexivity|]. eexists. split; [vm_compute; reflexivity|reflexivity]. Qed.

(** y[i] = x[3] at 0..2 reads an element determined by x[i] = z[i] at 0..4. The
    iterations to be replaced are none, and the equation made has inductions
    but no iterations. *)
Definition reads_three : inst :=
  mkInst (mkTmpl 1 (EAcc 1 [ix 0]) (EAcc 0 [SCst 3])) [box1 0 3] (Some (1%nat, [box1 0 3])).
Definition writes_all : inst :=
  mkInst (mkTmpl 1 (EAcc 0 [ix 0]) (EAcc 2 [ix 0])) [box1 0 5] (Some (0%nat, [box1 0 5])).
Definition read_three : cyc := mkCyc 0 [box1 0 3] (mkAcc false [] 0 [SCst 3]).
Theorem C96_constant_read_refuted :
  (forall p, In p (iterations reads_three) ->
     exists q, In q (iterations writes_all) /\ map (sub_at p) [SCst 3] = map (sub_at q) [ix 0]) /\
  exists n, clone_replaced reads_three (reading_indices reads_three read_three writes_all [ix 0])
      (c_read read_three) (i_tmpl writes_all) [ix 0] = Ok (Some [n]) /\
    t_rank (i_tmpl n) = 1%nat /\ iterations n = [].
Proof.
  split.
  - intros p _. exists [3]. split; [vm_compute; auto 10|reflexivity].
  - eexists. split; [vm_compute; reflexivity|]. split; reflexivity.
Qed.
Print Assumptions C96_constant_read_refuted.

(** ** C97: components solved by substitution *)

(** The equations left have the solutions of the component, both when it is
    solved and when the attempt is given up.
    Partial: for functions that find cycles as asked by [good_cycles], and
    exactly explicit equations; the rest of the statement is refuted below. *)
Theorem C97_component_solutions_partial : forall M explicit cycles_of eqs maxEquations maxIterations r,
  explicit_ok M explicit -> good_cycles explicit cycles_of ->
  solve_component explicit cycles_of maxEquations maxIterations eqs = Ok r ->
  same_solutions M eqs r.
Proof. intros. eapply component_solutions; eauto. Qed.
Print Assumptions C97_component_solutions_partial.

(** x[i] = y[i+1] at 0..3 and y[i] = x[i-1] + 1 at 1..2. *)
Definition ring_x : inst :=
  mkInst (mkTmpl 1 (EAcc 0 [ix 0]) (EAcc 1 [ix 1])) [box1 0 4] (Some (0%nat, [box1 0 4])).
Definition ring_y : inst :=
  mkInst (mkTmpl 1 (EAcc 1 [ix 0]) (EBin 0 (EAcc 0 [ix (-1)]) (ECst 1))) [box1 1 3] (Some (1%nat, [box1 1 3])).
Definition ring : list cyc :=
  [mkCyc 0 [box1 0 2] (mkAcc false [] 1 [ix 1]); mkCyc 1 [box1 1 3] (mkAcc false [0%nat] 0 [ix (-1)])].
Definition explicit_if (i : inst) : option inst :=
  match t_lhs (i_tmpl i) with EAcc _ _ => Some i | _ => None end.
Definition inst_dec (a b : inst) : {a = b} + {a <> b}.
Proof.
  assert (Zd := Z.eq_dec). assert (Nd := Nat.eq_dec).
  assert (Sd : forall x y : sub, {x = y} + {x <> y}) by decide equality.
  assert (Rd : forall x y : range, {x = y} + {x <> y}) by decide equality.
  assert (Fd := list_eq_dec Sd). assert (Bd := list_eq_dec (list_eq_dec Rd)).
  assert (Ed : forall x y : exp, {x = y} + {x <> y}) by decide equality.
  assert (Td : forall x y : tmpl, {x = y} + {x <> y}) by decide equality.
  assert (Md : forall x y : option (nat * bset), {x = y} + {x <> y}) by (repeat decide equality).
  decide equality.
Defined.
Definition ops_dec (a b : ops) : {a = b} + {a <> b}.
Proof.
  assert (Pd : forall x y : nat * inst, {x = y} + {x <> y}) by (pose inst_dec; decide equality; apply Nat.eq_dec).
  exact (list_eq_dec Pd a b).
Defined.
Definition ring_cycles (l : ops) : list (list cyc) :=
  if ops_dec l (number 0 [ring_x; ring_y]) then [ring] else [].
Lemma explicit_if_ok : forall M, explicit_ok M explicit_if.
Proof.
  intros M i x H. unfold explicit_if in H. destruct (t_lhs (i_tmpl i)); try discriminate.
  injection H as <-. auto.
Qed.
Lemma ring_good : good_cycles explicit_if ring_cycles.
Proof.
  intros l c _ Hc. unfold ring_cycles in Hc. destruct (ops_dec l _) as [->|]; [|destruct Hc].
  destruct Hc as [<-|[]]. split; [repeat constructor; cbn; intuition discriminate|].
  split; [intros x; cbn; tauto|]. split.
  - apply (RC_cons explicit_if _ _ _ ring_x).
    + reflexivity.
    + cbn. split; [repeat constructor; cbn; discriminate|discriminate].
    + discriminate.
    + cbn. auto.
    + intros _. split; [repeat constructor; cbn; discriminate|].
      intros p. rewrite <- !in_bs_points. vm_compute. tauto.
    + intros ws w x H Hw Hx. cbn in H. injection H as <-. destruct Hw as [<-|[]].
      cbn in Hx. injection Hx as <-. split; [cbn; split; [repeat constructor; cbn; discriminate|discriminate]|].
      exists [ix 0]. repeat split; [repeat constructor|discriminate].
    + eapply RC_last; [reflexivity|]. cbn. split; [repeat constructor; cbn; discriminate|discriminate].
  - intros f i ns Hf Hi R. cbn in Hf. injection Hf as <-. cbn in Hi. injection Hi as <-. discriminate.
Qed.
(** The component is solved in one round: the first equation becomes one for
    each range substituted and one with the iterations left over. *)
Example C97_example : good_cycles explicit_if ring_cycles /\
  exists r, solve_component explicit_if ring_cycles 10 10 [ring_x; ring_y] = Ok r /\
    map (fun i => length (iterations i)) r = [2; 1; 1; 2]%nat /\
    map (fun i => t_lhs (i_tmpl i)) r =
      [EAcc 1 [ix 0]; EAcc 0 [ix 0]; EAcc 0 [ix 0]; EAcc 0 [ix 0]].
Proof. split; [exact ring_good|]. eexists. split; [vm_compute; reflexivity|]. split; reflexivity. Qed.

(** When the attempt is given up, the component is not left as it was: the
    iterations left over of the first round are there twice. *)
Definition again_cycles (l : ops) : list (list cyc) :=
  if ops_dec l (number 0 [ring_x; ring_y]) then [ring]
  else [[mkCyc 2 [box1 0 2] (mkAcc false [0%nat] 0 [ix 0])]].
Theorem C97_given_up_refuted :
  exists r, solve_component explicit_if again_cycles 10 1 [ring_x; ring_y] = Ok r /\
    r <> [ring_x; ring_y] /\ ~ NoDup (flat_map scalars r) /\ NoDup (flat_map scalars [ring_x; ring_y]).
Proof.
  eexists. split; [vm_compute; reflexivity|]. split; [discriminate|]. split.
  - vm_compute. intros N. repeat match goal with H : NoDup (_ :: _) |- _ => inversion H; clear H; subst end.
    match goal with H : ~ In ?x _ |- _ => solve [apply H; cbn; auto 20] end.
  - vm_compute. repeat (constructor; [cbn; intuition discriminate|]). constructor.
Qed.
Print Assumptions C97_given_up_refuted.

(** z = 2 * x[1, 1] with x[i, i] = z at 1, 2: the pass reports success, and the
    equation of z is lost. *)
Definition diag_z : inst :=
  mkInst (mkTmpl 0 (EAcc 2 []) (EBin 1 (ECst 2) (EAcc 0 [SCst 1; SCst 1]))) [] (Some (2%nat, [])).
Definition diag_x : inst :=
  mkInst (mkTmpl 1 (EAcc 0 [ix 0; ix 0]) (EAcc 2 [])) [box1 1 3]
    (Some (0%nat, [[mkRange 1 2; mkRange 1 2]; [mkRange 2 3; mkRange 2 3]])).
Definition diag_cycles (l : ops) : list (list cyc) :=
  if ops_dec l (number 0 [diag_z; diag_x])
  then [[mkCyc 0 [box1 0 1] (mkAcc false [1%nat] 0 [SCst 1; SCst 1]); mkCyc 1 [box1 1 2] (mkAcc false [] 2 [])]]
  else [].
Definition integers : meaning := mkMeaning Z (fun z => z) (fun _ a => - a)
  (fun o a b => match o with O => a + b | _ => a * b end).
Theorem C97_equation_lost_refuted :
  solve_component explicit_if diag_cycles 10 10 [diag_z; diag_x] = Ok [diag_x] /\
  solution integers (fun _ _ => 5) [diag_x] /\ ~ solution integers (fun _ _ => 5) [diag_z; diag_x].
Proof.
  split; [vm_compute; reflexivity|]. split.
  - constructor; [|constructor]. intros p _. reflexivity.
  - intros H. inversion H as [|? ? H1 _]; subst. specialize (H1 [] (or_introl eq_refl)).
    unfold holds_at in H1. cbn in H1. discriminate.
Qed.
Print Assumptions C97_equation_lost_refuted.
