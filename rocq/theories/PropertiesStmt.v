(** * Properties of function bodies: C89 to C92

    The statements of a function, the operations they are lowered to and the
    control-flow graph made of them ([StmtModel.v]) against the language's own
    account of statements ([StmtSpec.v]). *)
From Coq Require Import ZArith List Bool Lia.
From Verif Require Import Result StmtModel StmtSpec StmtProofs StmtLowerProofs.
Import ListNotations.
Local Open Scope Z_scope.

(** Expressions for the examples. *)
Definition lit (z : Z) : sexp := SE [] (fun _ => Some z).
Definition var (x : nat) : sexp := SE [x] (fun vs => match vs with [v] => Some v | _ => None end).
Definition plus (x y : nat) : sexp :=
  SE [x; y] (fun vs => match vs with [a; b] => Some (a + b) | _ => None end).
Definition incr (x : nat) : sexp :=
  SE [x] (fun vs => match vs with [a] => Some (a + 1) | _ => None end).
Definition less (x : nat) (z : Z) : sexp :=
  SE [x] (fun vs => match vs with [a] => Some (if a <? z then 1 else 0) | _ => None end).

(** ** C89: a function runs as it is written

    [exec_function st algs st'] is the language's account, [run_function] runs
    the graph.  A covered function is compiled, and the graph returns with the
    variables [st'] exactly when the statements end with them: it computes
    nothing else, and does not return when they do not end.

    Partial: see [covered_stmt] for what is asked beyond what the language
    asks; the theorems of C91 and C92 show that each of these is needed. *)
Theorem C89_function_runs_as_written_partial dec algs :
  covered_function dec algs ->
  exists g, compile dec algs = Ok g /\
    forall st st', exec_function st algs st' <-> exists fuel, run_function g fuel st = Ok st'.
Proof. apply compile_correct. Qed.
Print Assumptions C89_function_runs_as_written_partial.

(** Two sections; loops inside one another, the inner bound depending on the
    outer index; [break], [return], [elseif]; variables 0 to 3, indices 5, 6. *)
Definition ex89 : list block :=
  [ BCons (SAssign 0 (lit 0))
      (BCons (SFor [(5%nat, [lit 1; var 1])]
         (BCons (SFor [(6%nat, [lit 1; var 5])]
            (BCons (SAssign 0 (plus 0 6))
               (BCons (SIf (less 0 30) BNil (AElse (BCons SBreak BNil))) BNil)))
          BNil)) BNil);
    BCons (SIf (less 0 10) (BCons (SAssign 2 (lit 1)) BNil)
             (AElseIf (less 0 31) (BCons (SAssign 2 (lit 2)) BNil)
                (AElse (BCons (SAssign 2 (lit 3)) (BCons SReturn BNil)))))
      (BCons (SAssign 3 (lit 7)) BNil) ].

Ltac nm := intros y Hy; cbn in *; intuition (subst; auto; try discriminate).

Ltac cov :=
  repeat match goal with
  | |- Forall _ _ => constructor
  | |- covered_block _ _ _ (BCons _ _) => cbn [covered_block]
  | |- covered_block _ _ _ BNil => exact I
  | |- covered_stmt _ _ _ _ => cbn [covered_stmt]
  | |- covered_alt _ _ _ _ => cbn [covered_alt]
  | |- exists _, _ => eexists
  | |- _ /\ _ => split
  | |- _ = _ => reflexivity
  | |- True => exact I
  | |- _ -> straight _ => cbn; intros; solve [exact I | congruence]
  | |- names_ok _ _ _ => nm
  | |- _ \/ _ -> _ => let H := fresh in intros [H|H]; first [discriminate H | reflexivity]
  end; try solve [nm]; cbn; try lia; try tauto.

Example C89_nonvacuous_covered : covered_function [0; 1; 2; 3]%nat ex89.
Proof. unfold ex89, covered_function. cov. Qed.

Example C89_nonvacuous_runs : exists g, compile [0; 1; 2; 3]%nat ex89 = Ok g /\
  (fun r => match r with Ok f => Some (map f [0; 2; 3]%nat) | _ => None end)
    (run_function g 1000 (fun x => if Nat.eqb x 1 then 4 else 0)) = Some [20; 2; 7] /\
  (fun r => match r with Ok f => Some (map f [0; 2; 3]%nat) | _ => None end)
    (run_function g 1000 (fun x => if Nat.eqb x 1 then 6 else 0)) = Some [31; 3; 0].
Proof. eexists. split; [vm_compute; reflexivity|]. vm_compute. auto. Qed.

(** ** C90: the control-flow graph runs as the structured operations

    The conversion of [IfOp], [ForOp], [WhileOp], [BreakOp] and [ReturnOp] by
    itself, whatever made the operations: here loops may re-evaluate their
    condition and their step as they like, and [while] is covered, provided
    its body does not end in a yield. *)
Theorem C90_graph_runs_as_operations_partial algs :
  covered_algs algs ->
  exists g entry, convert algs = Ok g /\ legal g = true /\ find_blk g 0 = Some entry /\
    forall s sf, run_algs s algs sf <-> exists fuel, crun g fuel (entry, s) = Ok sf.
Proof. apply convert_correct. Qed.
Print Assumptions C90_graph_runs_as_operations_partial.

Definition lvar (x : nat) : lexp := LE [RVar x] (fun vs => match vs with [v] => Some v | _ => None end).
Definition ldecr (x : nat) : lexp := LE [RVar x] (fun vs => match vs with [v] => Some (v - 1) | _ => None end).
Definition lplus (x y : nat) : lexp :=
  LE [RVar x; RVar y] (fun vs => match vs with [a; b] => Some (a + b) | _ => None end).

(** [while x loop y := y + x; x := x - 1; if z then break; end if; end while] *)
Definition ex90 : list ops :=
  [OWhile (lvar 0) (OSet 1 (lplus 1 0) (OSet 0 (ldecr 0)
      (OIf (lvar 2) (OBreak ONil) false ONil ONil))) ONil].

Example C90_nonvacuous : covered_algs ex90 /\
  exists g, convert ex90 = Ok g /\
  (fun r => match r with Ok f => Some (map (vars f) [0; 1]%nat) | _ => None end)
    (crun g 1000 (([], TBr 2), IS (fun x => if Nat.eqb x 0 then 4 else 0) (fun _ => 0)))
  = Some [0; 10].
Proof.
  split; [repeat constructor|]. eexists. split; [vm_compute; reflexivity|]. vm_compute. reflexivity.
Qed.

(** ** C91: a [for] loop takes the values of its range

    For a range without a step whose bound is not assigned in the loop this is
    C89; here is the loop alone, whatever is its body, as a chain of states:
    the body is run with the index at [first], [first + 1], ..., [last]. *)
Theorem C91_for_visits_its_range_partial dec x lo hi body :
  covered_stmt dec [] false (SFor [(x, [lo; hi])] body) ->
  exists g, compile dec [BCons (SFor [(x, [lo; hi])] body) BNil] = Ok g /\
    forall st st' first last,
      value [] st lo = Some first -> value [] st hi = Some last ->
      ((exists o, exec_iter [] st x (progression first 1 (Z.to_nat (last - first + 1))) [] body st' o)
       <-> exists fuel, run_function g fuel st = Ok st').
Proof.
  intros HC.
  destruct (compile_correct dec [BCons (SFor [(x, [lo; hi])] body) BNil]) as (g & E & H).
  { constructor; [|constructor]. cbn [covered_block]. split; [exact HC|].
    split; [exact I|]. intros [D|D]; discriminate D. }
  exists g. split; [exact E|]. intros st st' first last Hf Hl. rewrite <- H. split.
  - intros [o HI]. assert (HX : exec_stmt [] st (SFor [(x, [lo; hi])] body) st' o).
    { constructor. eapply E_index; [cbn; rewrite Hf, Hl; reflexivity|reflexivity|exact HI]. }
    destruct o.
    + eapply F_next; [|constructor]. eapply E_cons; [exact HX|constructor].
    + exfalso. exact (iter_not_breaking _ _ _ _ _ _ _ _ HI eq_refl).
    + apply F_return. now apply E_leave.
  - intros HF. assert (exists o, exec_block [] st (BCons (SFor [(x, [lo; hi])] body) BNil) st' o)
      as [o HB].
    { inversion HF as [|? ? ? ? ? HB HN|? ? ? ? HB]; subst; [|eauto].
      inversion HN; subst. eauto. }
    assert (exists o, exec_stmt [] st (SFor [(x, [lo; hi])] body) st' o) as [o' HX].
    { inversion HB as [|? ? ? ? ? ? ? HS HN|? ? ? ? ? ? HS]; subst; [|eauto].
      inversion HN; subst. eauto. }
    exists o'. inversion HX as [| | |? ? ? ? ? ? HFor| | | | | |]; subst.
    inversion HFor as [|? ? ? ? ? ? ? ? ? ? HV HR HI]; subst.
    cbn in HV. rewrite Hf, Hl in HV. injection HV as <-. cbn in HR. injection HR as <-. exact HI.
Qed.
Print Assumptions C91_for_visits_its_range_partial.

Example C91_nonvacuous :
  covered_stmt [0; 1]%nat [] false (SFor [(5%nat, [lit 2; var 1])] (BCons (SAssign 0 (plus 0 5)) BNil)) /\
  progression 2 1 (Z.to_nat (5 - 2 + 1)) = [2; 3; 4; 5].
Proof.
  split; [|reflexivity]. cbn. eexists _, _, _. split; [reflexivity|].
  repeat split; try solve [nm]; intuition discriminate.
Qed.

(** With a step, the step is taken for the bound and the bound for the step:
    [for i in 1:2:5] should add 1, 3 and 5 and adds 1. *)
Theorem C91_stepped_range_refuted :
  let f := [BCons (SFor [(5%nat, [lit 1; lit 2; lit 5])] (BCons (SAssign 0 (plus 0 5)) BNil)) BNil] in
  exists g st', compile [0%nat] f = Ok g /\
    exec_function (fun _ => 0) f st' /\ st' 0%nat = 9 /\
    (exists fuel r, run_function g fuel (fun _ => 0) = Ok r) /\
    forall fuel r, run_function g fuel (fun _ => 0) = Ok r -> r 0%nat = 1.
Proof.
  intros f. eexists _, _. split; [vm_compute; reflexivity|]. split; [|split; [|split]].
  - eapply F_next; [|constructor]. eapply E_cons; [|constructor]. constructor.
    eapply E_index; [reflexivity|reflexivity|]. vm_compute (progression _ _ _).
    repeat (eapply E_again; [constructor; eapply E_cons; [constructor; reflexivity|constructor]|]).
    constructor.
  - reflexivity.
  - exists 100%nat. eexists. vm_compute. reflexivity.
  - intros fuel r H.
    match type of H with run_function ?g _ ?st = _ =>
      assert (E : exists r0, run_function g 100 st = Ok r0 /\ r0 0%nat = 1)
        by (eexists; split; [vm_compute; reflexivity|reflexivity]) end.
    destruct E as (r0 & E & E0). now rewrite (run_same _ _ _ _ _ _ H E).
Qed.
Print Assumptions C91_stepped_range_refuted.

(** [for i in 1:1:n] with [n = 0] should do nothing and never ends. *)
Theorem C91_empty_stepped_range_never_ends_refuted st : st 1%nat = 0 ->
  let f := [BCons (SFor [(5%nat, [lit 1; lit 1; var 1])] (BCons (SAssign 0 (incr 0)) BNil)) BNil] in
  exists g, compile [0; 1]%nat f = Ok g /\ exec_function st f st /\
    forall fuel r, run_function g fuel st <> Ok r.
Proof.
  intros Hst f.
  destruct (compile_runs [0; 1]%nat f _ eq_refl ltac:(repeat constructor)) as (g & E & HR).
  exists g. split; [exact E|]. split.
  - eapply F_next; [|constructor]. eapply E_cons; [|constructor]. constructor.
    eapply E_index; [unfold values, value; cbn; rewrite Hst; reflexivity|reflexivity|].
    vm_compute (progression _ _ _). constructor.
  - intros fuel r H. apply HR in H. destruct H as (s' & H & _).
    assert (HX : exists s0 s1 o1, slots s0 0%nat = 1 /\ vars s0 1%nat = 0 /\
      run_for s0 0 (LE [] (fun _ => Some 1)) (OSet 0 (LE [RVar 0] (value_of (incr 0))) (OYield ONil))
        (LE [RVar 1] (value_of (var 1))) s1 o1).
    { inversion H as [|? ? ? ? ? HO _|? ? ? ? HO]; subst; clear H;
        (inversion HO; subst; clear HO;
         match goal with L : leval _ _ = Some ?v |- _ => cbn in L; injection L as <- end;
         match goal with L : run_ops _ (OFor _ _ _ _ _) _ _ |- _ => inversion L; subst; clear L end;
         eexists _, _, _; split; [|split; [|eassumption]]; [reflexivity|exact Hst]). }
    destruct HX as (s0 & s1 & o1 & H0 & H1 & HF).
    refine (for_diverges (fun s => slots s 0%nat = 1 /\ vars s 1%nat = 0) _ _ _ _ _ _ _ _ _ HF _).
    + intros s [A B]. exists 1. split; [reflexivity|lia].
    + intros s s2 o [A B] HO. inversion HO; subst.
      match goal with L : run_ops _ (OYield _) _ _ |- _ => inversion L; subst end.
      split; [reflexivity|]. intros d Hd. cbn in Hd. rewrite B in Hd. injection Hd as <-.
      cbn. unfold set. cbn. split; [lia|exact B].
    + auto.
Qed.
Print Assumptions C91_empty_stepped_range_never_ends_refuted.

Lemma grow : forall k i st, exists st',
  exec_iter [] st 5 (progression i 1 k) [] (BCons (SAssign 1 (incr 1)) BNil) st' Normal /\
  st' 1%nat = st 1%nat + Z.of_nat k.
Proof.
  induction k as [|k IH]; intros i st.
  - exists st. split; [constructor|lia].
  - destruct (IH (i + 1) (set st 1 (st 1%nat + 1))) as (st' & HI & HV).
    exists st'. split.
    + cbn [progression]. eapply E_again; [|exact HI]. constructor.
      eapply E_cons; [constructor; reflexivity|constructor].
    + rewrite HV. unfold set. cbn. lia.
Qed.

(** The bound is computed again before every turn: a loop that should take as
    many turns as the variable says when it is reached, and adds one to the
    variable at every turn, never ends. *)
Theorem C91_bound_computed_again_refuted st : 1 <= st 1%nat ->
  let f := [BCons (SFor [(5%nat, [lit 1; var 1])] (BCons (SAssign 1 (incr 1)) BNil)) BNil] in
  exists g, compile [1%nat] f = Ok g /\
    (exists st', exec_function st f st' /\ st' 1%nat = 2 * st 1%nat) /\
    forall fuel r, run_function g fuel st <> Ok r.
Proof.
  intros Hst f.
  destruct (compile_runs [1%nat] f _ eq_refl ltac:(repeat constructor)) as (g & E & HR).
  exists g. split; [exact E|]. split.
  - destruct (grow (Z.to_nat (st 1%nat - 1 + 1)) 1 st) as (st' & HI & HV).
    exists st'. split; [|lia].
    eapply F_next; [|constructor]. eapply E_cons; [|constructor]. constructor.
    eapply E_index; [reflexivity|reflexivity|]. exact HI.
  - intros fuel r H. apply HR in H. destruct H as (s' & H & _).
    assert (HX : exists s0 s1 o1, slots s0 0%nat = 1 /\ vars s0 = st /\
      run_for s0 0 (LE [RVar 1] (value_of (var 1)))
        (OSet 1 (LE [RVar 1] (value_of (incr 1))) (OYield ONil)) one_exp s1 o1).
    { inversion H as [|? ? ? ? ? HO _|? ? ? ? HO]; subst; clear H;
        (inversion HO; subst; clear HO;
         match goal with L : leval _ _ = Some ?v |- _ => cbn in L; injection L as <- end;
         match goal with L : run_ops _ (OFor _ _ _ _ _) _ _ |- _ => inversion L; subst; clear L end;
         eexists _, _, _; split; [|split; [|eassumption]]; reflexivity). }
    destruct HX as (s0 & s1 & o1 & H0 & H1 & HF).
    refine (for_diverges (fun s => slots s 0%nat <= vars s 1%nat) _ _ _ _ _ _ _ _ _ HF _).
    + intros s A. exists (vars s 1%nat). split; [reflexivity|lia].
    + intros s s2 o A HO. inversion HO; subst.
      match goal with L : run_ops _ (OYield _) _ _ |- _ => inversion L; subst end.
      split; [reflexivity|]. intros d Hd. cbn in Hd. injection Hd as <-.
      match goal with L : leval _ _ = Some _ |- _ => cbn in L; injection L as <- end.
      cbn. unfold set. cbn. lia.
    + rewrite H0, H1. exact Hst.
Qed.
Print Assumptions C91_bound_computed_again_refuted.

(** Two indices: the loops run one after the other, not one inside the other. *)
Theorem C91_two_indices_refuted :
  let f := [BCons (SFor [(5%nat, [lit 1; lit 2]); (6%nat, [lit 1; lit 3])]
                     (BCons (SAssign 0 (incr 0)) BNil)) BNil] in
  exists g st', compile [0%nat] f = Ok g /\
    exec_function (fun _ => 0) f st' /\ st' 0%nat = 6 /\
    (exists fuel r, run_function g fuel (fun _ => 0) = Ok r) /\
    forall fuel r, run_function g fuel (fun _ => 0) = Ok r -> r 0%nat = 5.
Proof.
  intros f. eexists _, _. split; [vm_compute; reflexivity|]. split; [|split; [|split]].
  - eapply F_next; [|constructor]. eapply E_cons; [|constructor]. constructor.
    eapply E_index; [reflexivity|reflexivity|]. vm_compute (progression _ _ _).
    repeat (eapply E_again; [eapply E_index; [reflexivity|reflexivity|];
      vm_compute (progression _ _ _);
      repeat (eapply E_again; [constructor; eapply E_cons; [constructor; reflexivity|constructor]|]);
      constructor|]).
    constructor.
  - reflexivity.
  - exists 100%nat. eexists. vm_compute. reflexivity.
  - intros fuel r H.
    match type of H with run_function ?g _ ?st = _ =>
      assert (E : exists r0, run_function g 100 st = Ok r0 /\ r0 0%nat = 5)
        by (eexists; split; [vm_compute; reflexivity|reflexivity]) end.
    destruct E as (r0 & E & E0). now rewrite (run_same _ _ _ _ _ _ H E).
Qed.
Print Assumptions C91_two_indices_refuted.

(** ... and a body that reads both indices is refused, each loop knowing only
    its own. *)
Theorem C91_two_indices_read_refuted :
  compile [0%nat] [BCons (SFor [(5%nat, [lit 1; lit 2]); (6%nat, [lit 1; lit 3])]
                     (BCons (SAssign 0 (plus 5 6)) BNil)) BNil] = Bad.
Proof. reflexivity. Qed.
Print Assumptions C91_two_indices_read_refuted.

(** ** C92: legal statements are compiled *)
Theorem C92_covered_functions_compile_partial dec algs :
  covered_function dec algs -> exists g, compile dec algs = Ok g.
Proof. intros H. destruct (compile_correct dec algs H) as (g & E & _). eauto. Qed.
Print Assumptions C92_covered_functions_compile_partial.

Example C92_nonvacuous : covered_function [0; 1; 2; 3]%nat ex89.
Proof. exact C89_nonvacuous_covered. Qed.

(** No [while] over assignments is: the yield that the lowering puts at the end
    of its body is still there, in the middle of a block, after the branch has
    been added. *)
Theorem C92_while_refuted dec c b : straight b ->
  forall g, compile dec [BCons (SWhile c b) BNil] <> Ok g.
Proof. apply while_refused. Qed.
Print Assumptions C92_while_refuted.

(** The language gives such a loop a meaning. *)
Example C92_while_nonvacuous : straight (BCons (SAssign 0 (incr 0)) BNil) /\
  exists st', exec_function (fun _ => 0) [BCons (SWhile (less 0 3) (BCons (SAssign 0 (incr 0)) BNil)) BNil] st'
    /\ st' 0%nat = 3.
Proof.
  split; [exact I|]. eexists. split.
  - eapply F_next; [|constructor]. eapply E_cons; [|constructor].
    do 3 (eapply E_while_again; [reflexivity|discriminate
           |eapply E_cons; [constructor; reflexivity|constructor]|]).
    apply E_while_done. reflexivity.
  - reflexivity.
Qed.

(** No [if] with an [else] is when its first block holds a loop, another [if],
    a [break] or a [return]: only the [else] block is converted. *)
Theorem C92_if_else_refuted dec c th b : block_control th -> straight b ->
  forall g, compile dec [BCons (SIf c th (AElse b)) BNil] <> Ok g.
Proof. apply if_else_refused. Qed.
Print Assumptions C92_if_else_refuted.

Example C92_if_else_nonvacuous :
  let th := BCons (SAssign 0 (lit 1)) (BCons SReturn BNil) in
  let b := BCons (SAssign 0 (lit 2)) BNil in
  block_control th /\ straight b /\
  exists st', exec_function (fun _ => 0) [BCons (SIf (less 0 3) th (AElse b)) BNil] st' /\ st' 0%nat = 1.
Proof.
  cbn. split; [auto|]. split; [exact I|]. eexists. split.
  - apply F_return. apply E_leave; [|discriminate].
    eapply E_if_true; [reflexivity|discriminate|].
    eapply E_cons; [constructor; reflexivity|]. apply E_leave; [constructor|discriminate].
  - reflexivity.
Qed.

(** No assignment after a [return] is, although it is only unreachable. *)
Theorem C92_after_return_refuted dec x e b : forall g,
  compile dec [BCons SReturn (BCons (SAssign x e) b)] <> Ok g.
Proof. apply after_return_refused. Qed.
Print Assumptions C92_after_return_refuted.

Example C92_after_return_nonvacuous st :
  exec_function st [BCons SReturn (BCons (SAssign 0 (lit 1)) BNil)] st.
Proof. apply F_return. apply E_leave; [constructor|discriminate]. Qed.

(** The same loop is refused in an [else] block, which is reached only when the
    condition is false. *)
Definition ex92_else : list block :=
  [BCons (SIf (less 0 3) (BCons (SAssign 0 (incr 0)) BNil)
           (AElse (BCons (SWhile (less 0 9) (BCons (SAssign 0 (incr 0)) BNil)) BNil))) BNil].
Theorem C92_while_in_else_refuted :
  compile [0]%nat ex92_else = Bad /\
  (exists st', exec_function (fun _ => 8) ex92_else st' /\ st' 0%nat = 9).
Proof.
  split; [vm_compute; reflexivity|]. eexists. split.
  - eapply F_next; [|constructor]. eapply E_cons; [|constructor].
    eapply E_if_false; [reflexivity|]. eapply E_else.
    eapply E_cons; [|constructor].
    eapply E_while_again; [reflexivity|discriminate
           |eapply E_cons; [constructor; reflexivity|constructor]|].
    apply E_while_done. reflexivity.
  - reflexivity.
Qed.
Print Assumptions C92_while_in_else_refuted.
