(** * C104: inlining functions *)
From Coq Require Import ZArith List Bool Arith Lia.
From Verif Require Import Result AccessModel InlineModel InlineSpec InlineProofs.
Import ListNotations.
Local Open Scope nat_scope.

Section Meaning.
Variable op_val : nat -> list val -> option val.
Variable reg_dom : nat -> list val -> option (list val).
Variable reg_fold : nat -> list val -> list val -> option val.
Notation hv := (has_val op_val reg_dom reg_fold).

(** [C104, partial]  Whatever calls are replaced by the bodies of their functions,
    in a model or in functions, in any order and at any depth, an expression that
    has a value keeps it, in every environment and for any meaning of the
    operations.  What is missing is what [accepted] asks, see the refutations. *)
Theorem C104_inlining_partial P e Q d r its v :
  inlines P e Q d -> good P -> hv P r its e v -> hv Q r its d v.
Proof. apply inlines_value. Qed.

(** An expression has one value, so the value after inlining is that before. *)
Theorem C104_one_value P e Q d r its v w :
  inlines P e Q d -> good P -> hv P r its e v -> hv Q r its d w -> v = w.
Proof. intros I G H (n & K). destruct (inlines_value _ _ _ _ _ _ _ _ _ _ I G H) as (m & M). eapply eval_det; eauto. Qed.

(** Inlining a call that has a value does not fail, and leaves no statements. *)
Theorem C104_no_failure_partial P f k args fn r its v :
  good P -> P f = Some fn -> can_inline fn = true -> hv P r its (XCall f k args) v ->
  exists e, inline_call fn k args = Ok (e, []) /\ hv P r its e v.
Proof.
  intros G F C (n & H). destruct n as [|n]; [discriminate|]. cbn in H.
  apply obind_some in H as (vs & E & H). rewrite F in H. cbn in H.
  eapply inline_value; [apply (G f fn F C)| |exact H]. eapply mapo_hv; eauto.
Qed.

(** ** Refutations *)

Definition call_f (a : val) : expr := XCall 0 0 [XConst a].
Definition prog_of (fn : func) : prog := fun f => if Nat.eqb f 0 then Some fn else None.

(** [C104]  The functions that are inlined are the ones that ask for it, have one
    algorithm, and have no assignment that depends on a condition. *)
Theorem C104_which : forall f, can_inline f = true <->
  f_inline f = true /\ exists body, f_algorithms f = [body] /\ forall s, In s body -> ~ assigns_within s.
Proof. exact can_inline_iff. Qed.
Example C104_which_case : can_inline {| f_inline := true; f_inputs := [(0, None)]; f_outputs := [(2, None)]; f_protected := [];
  f_algorithms := [[SSet 2 [] (XConst (VZ 1)); SIf (XVar 0) [SReturn; SIf (XVar 0) [SReturn; SSet 2 [] (XConst (VZ 2))]]]] |} = false.
Proof. reflexivity. Qed.

(** [C104, refuted]  function f(x, y = x) with z := y.  The default value of [y]
    reads [x] of the caller. *)
Definition f_default := {| f_inline := true; f_inputs := [(0, None); (1, Some (XVar 0))]; f_outputs := [(2, None)]; f_protected := [];
  f_algorithms := [[SSet 2 [] (XVar 1)]] |}.
Theorem C104_default_reads_refuted a b r its : r 0 = Some b ->
  can_inline f_default = true /\ hv (prog_of f_default) r its (call_f a) a /\
  exists e, inline_call f_default 0 [XConst a] = Ok (e, []) /\ hv (prog_of f_default) r its e b /\
    (a <> b -> ~ hv (prog_of f_default) r its e a).
Proof.
  intros R. split; [reflexivity|]. split; [exists 3; reflexivity|].
  exists (XVar 0). split; [reflexivity|]. split; [exists 1; exact R|].
  intros N (n & H). destruct n; [discriminate|]. cbn in H. congruence.
Qed.

(** [C104, refuted]  A protected variable with a default value that is read: the
    compiler looks up a value that is not there. *)
Definition f_protected_default c := {| f_inline := true; f_inputs := [(0, None)]; f_outputs := [(2, None)]; f_protected := [(1, Some (XConst c))];
  f_algorithms := [[SSet 2 [] (XVar 1)]] |}.
Theorem C104_protected_default_refuted a c r its :
  can_inline (f_protected_default c) = true /\ hv (prog_of (f_protected_default c)) r its (call_f a) c /\
  inline_call (f_protected_default c) 0 [XConst a] = Bad.
Proof. split; [reflexivity|]. split; [exists 3; reflexivity|reflexivity]. Qed.

(** [C104, refuted]  An output with a default value that is not assigned. *)
Definition f_output_default c := {| f_inline := true; f_inputs := [(0, None)]; f_outputs := [(2, Some (XConst c))]; f_protected := [(1, None)];
  f_algorithms := [[SSet 1 [] (XVar 0)]] |}.
Theorem C104_output_default_refuted a c r its :
  can_inline (f_output_default c) = true /\ hv (prog_of (f_output_default c)) r its (call_f a) c /\
  inline_call (f_output_default c) 0 [XConst a] = Bad.
Proof. split; [reflexivity|]. split; [exists 3; reflexivity|reflexivity]. Qed.

(** [C104, refuted]  z := l; z[i] := x.  The value assigned to the element replaces
    the array. *)
Definition f_subscript l i := {| f_inline := true; f_inputs := [(0, None)]; f_outputs := [(2, None)]; f_protected := [];
  f_algorithms := [[SSet 2 [] (XConst (VL l)); SSet 2 [XConst (VZ (Z.of_nat i))] (XVar 0)]] |}.
Theorem C104_subscript_refuted l i z r its : i < length l ->
  can_inline (f_subscript l i) = true /\
  (exists l', length l' = length l /\ hv (prog_of (f_subscript l i)) r its (call_f (VZ z)) (VL l')) /\
  inline_call (f_subscript l i) 0 [XConst (VZ z)] = Ok (XConst (VZ z), []).
Proof.
  intros L. split; [reflexivity|]. split; [|reflexivity].
  destruct (nth_error l i) as [w|] eqn:E; [|apply nth_error_None in E; lia].
  exists (firstn i l ++ VZ z :: skipn (S i) l). split.
  - rewrite app_length, firstn_length. cbn [length]. rewrite skipn_length. lia.
  - exists 3. cbn. rewrite Nat2Z.id, E. reflexivity.
Qed.

(** [C104, refuted]  z := sum(x for i in ...).  The region reads [x] of the caller. *)
Definition f_region o := {| f_inline := true; f_inputs := [(0, None)]; f_outputs := [(2, None)]; f_protected := [];
  f_algorithms := [[SSet 2 [] (XReg o [] (XVar 0))]] |}.
Lemma mapo_const {A B} (b : B) (l : list A) : mapo (fun _ => Some b) l = Some (map (fun _ => b) l).
Proof. induction l as [|a l IH]; [reflexivity|]. cbn. rewrite IH. reflexivity. Qed.
Theorem C104_region_refuted o is a b r its : reg_dom o [] = Some is -> r 0 = Some b ->
  can_inline (f_region o) = true /\
  (forall v, reg_fold o [] (map (fun _ => a) is) = Some v -> hv (prog_of (f_region o)) r its (call_f a) v) /\
  exists e, inline_call (f_region o) 0 [XConst a] = Ok (e, []) /\
    forall w, reg_fold o [] (map (fun _ => b) is) = Some w -> hv (prog_of (f_region o)) r its e w.
Proof.
  intros D R. split; [reflexivity|]. split.
  - intros v F. exists 4. cbn. rewrite D. cbn. rewrite mapo_const. cbn. rewrite F. reflexivity.
  - exists (XReg o [] (XVar 0)). split; [reflexivity|]. intros w F. exists 2. cbn. rewrite D. cbn. rewrite R, mapo_const. exact F.
Qed.

(** [C104, refuted]  z := a; if x then return; end if; z := b.  The value of the
    call becomes [b], whatever [x] is. *)
Definition f_return a b := {| f_inline := true; f_inputs := [(0, None)]; f_outputs := [(2, None)]; f_protected := [];
  f_algorithms := [[SSet 2 [] (XConst a); SIf (XVar 0) [SReturn]; SSet 2 [] (XConst b)]] |}.
Theorem C104_return_refuted a b r its :
  can_inline (f_return a b) = true /\ hv (prog_of (f_return a b)) r its (call_f (VZ 1)) a /\
  exists s, inline_call (f_return a b) 0 [XConst (VZ 1)] = Ok (XConst b, s).
Proof. split; [reflexivity|]. split; [exists 3; reflexivity|]. eexists. reflexivity. Qed.
End Meaning.
Print Assumptions C104_inlining_partial.
Print Assumptions C104_which.
Print Assumptions C104_one_value.
Print Assumptions C104_no_failure_partial.
Print Assumptions C104_default_reads_refuted.
Print Assumptions C104_protected_default_refuted.
Print Assumptions C104_output_default_refuted.
Print Assumptions C104_subscript_refuted.
Print Assumptions C104_region_refuted.
Print Assumptions C104_return_refuted.

(** ** A case
    g(u) := u + 1;  f(x, y = 10) := z := g(x) + y; z := z + g(z);  and the
    expression f(v) + sum(g(i) for i in 1:2) of a model. *)
Definition plus (o : nat) (l : list val) : option val :=
  match l with [VZ a; VZ b] => Some (VZ (a + b)) | _ => None end.
Definition one_two (o : nat) (l : list val) : option (list val) := Some [VZ 1; VZ 2].
Definition total (o : nat) (l ws : list val) : option val :=
  fold_right (fun w t => match w, t with VZ a, Some (VZ b) => Some (VZ (a + b)) | _, _ => None end) (Some (VZ 0)) ws.
Definition g_fn := {| f_inline := true; f_inputs := [(0, None)]; f_outputs := [(1, None)]; f_protected := [];
  f_algorithms := [[SSet 1 [] (XOp 0 [XVar 0; XConst (VZ 1)])]] |}.
Definition f_fn := {| f_inline := true; f_inputs := [(0, None); (1, Some (XConst (VZ 10)))]; f_outputs := [(2, None)]; f_protected := [];
  f_algorithms := [[SSet 2 [] (XOp 0 [XCall 1 0 [XVar 0]; XVar 1]); SSet 2 [] (XOp 0 [XVar 2; XCall 1 0 [XVar 2]])]] |}.
Definition example_prog : prog := fun f => match f with 0 => Some f_fn | 1 => Some g_fn | _ => None end.
Definition example_expr := XOp 0 [XCall 0 0 [XVar 7]; XReg 0 [] (XCall 1 0 [XIter 0])].
Definition example_env : env := fun x => if Nat.eqb x 7 then Some (VZ 5) else None.

Example C104_good : good example_prog.
Proof.
  intros [|[|f]] fn H _; cbn in H; try discriminate; injection H as <-; constructor; cbn;
    repeat (apply Forall_cons || apply Forall_nil); cbn; auto; repeat constructor; cbn; intuition discriminate.
Qed.
(** The call of [f] is replaced first, then the calls of [g] that came with it and the one in the sum. *)
Example C104_example : exists d, inlines example_prog example_expr example_prog d /\
  d = XOp 0 [XOp 0 [XOp 0 [XOp 0 [XVar 7; XConst (VZ 1)]; XConst (VZ 10)]; XOp 0 [XOp 0 [XOp 0 [XVar 7; XConst (VZ 1)]; XConst (VZ 10)]; XConst (VZ 1)]];
             XReg 0 [] (XOp 0 [XIter 0; XConst (VZ 1)])] /\
  has_val plus one_two total example_prog example_env [] example_expr (VZ 38) /\
  has_val plus one_two total example_prog example_env [] d (VZ 38).
Proof.
  assert (RP : inl_prog example_prog example_prog).
  { intros [|[|f]]; cbn; auto; (constructor; cbn; [reflexivity|..]); repeat (apply Forall2_cons || apply Forall2_nil || split || constructor || apply inl_refl). }
  eexists. split; [|split; [reflexivity|split; [exists 9; reflexivity|exists 9; reflexivity]]].
  eapply inlines_step with (Q := example_prog) (d := XOp 0 [XOp 0 [XOp 0 [XCall 1 0 [XVar 7]; XConst (VZ 10)]; XCall 1 0 [XOp 0 [XCall 1 0 [XVar 7]; XConst (VZ 10)]]];
             XReg 0 [] (XCall 1 0 [XIter 0])]); [exact RP| |].
  { constructor. constructor; [|constructor; [apply inl_refl|constructor]].
    eapply inl_inline with (fn := f_fn) (l' := [XVar 7]); [repeat constructor|reflexivity|reflexivity|reflexivity]. }
  eapply inlines_step with (Q := example_prog); [exact RP| |apply inlines_done].
  assert (G : forall a b, inl example_prog a b -> inl example_prog (XCall 1 0 [a]) (XOp 0 [b; XConst (VZ 1)])).
  { intros a b I. eapply inl_inline with (fn := g_fn) (l' := [b]); [repeat constructor; exact I|reflexivity|reflexivity|reflexivity]. }
  repeat first [apply G | apply inl_var | apply inl_const | apply inl_iter | apply inl_op | apply inl_reg | apply Forall2_cons | apply Forall2_nil].
Qed.
