(** * Properties of the equations of the source: C101

    The lowering of equations to templates ([ForModel.v]) against what they say
    ([ForSpec.v]). *)
From Coq Require Import ZArith NArith List Bool Arith Lia.
From Verif Require Import RangeModel MDRangeModel Spec Result IndexSetModel IndexSetSpec ForModel ForSpec ForProofs.
Import ListNotations.
Local Open Scope nat_scope.

(** The variables 0 and 1 are arrays of three elements, in which the element i is
    i and i; the variable 2 is the scalar 4.  The operation 0 takes an element of
    an array, counted from one; the operation 1 adds. *)
Definition ex_num (v : val Z) : Z := match v with VS z => z | VA _ _ => 0%Z end.
Definition ex_so : solution Z :=
  {| so_num := fun z => VS z;
     so_var := fun x => match x with 0 | 1 => VA [3%Z] (fun idx => nth 0 idx 0%Z) | _ => VS 4%Z end;
     so_int := fun _ => 3%Z;
     so_op := fun o l => match o, l with
                         | 0, [v; i] => element_at v [(ex_num i - 1)%Z]
                         | _, [a; b] => VS (ex_num a + ex_num b)%Z
                         | _, _ => VS 0%Z end;
     so_true := fun v => match v with VS 1%Z => True | _ => False end |}.
Definition ex_ty (e : lexp) : option (list (option Z)) :=
  match e with LVar 0 | LVar 1 => Some [Some 3%Z] | _ => None end.
Definition lit (a b : N) : frange := {| fr_begin := BLit a; fr_step := None; fr_end := BLit b |}.
(** for i in 1:3 loop x[i] = y[i]; (z, x) = (2 + 2, y); end for;
    x = y (in an initial section), with y = x = {0, 1, 2} and z = 4. *)
Definition ex_secs : list (bool * list sequ) :=
  [(false, [SFor [(7, lit 1 3)] [SEq [SApp 0 [SName 0; SName 7]] [SApp 0 [SName 1; SName 7]];
                                SEq [SName 2; SName 0] [SApp 1 [SNum 2; SNum 2]; SName 1]]]);
   (true, [SEq [SName 0] [SName 1]])].

(** ** The solutions *)

(** The solutions of the templates are those of the equations, for the dynamic
    and for the initial sections. *)
Theorem C101_solutions : forall E (M : solution E) ty secs ts initial,
  compile_equations isMin isMax ty secs = Ok ts -> right_types M ty -> well_sized M secs ->
  (solves M initial secs <-> forall t, In (initial, t) ts -> template_solved M t).
Proof. exact compile_solves. Qed.
Print Assumptions C101_solutions.

Lemma ex_right : right_types ex_so ex_ty.
Proof.
  intros e d p K. destruct e as [z|[|[|x]]|k|o l|e ks]; cbn in K; try discriminate; injection K as <-;
    (eexists; eexists; split; [reflexivity|]; constructor; [reflexivity|constructor]).
Qed.
Lemma ex_sized : well_sized ex_so ex_secs.
Proof.
  intros i l e [K|[K|[]]] He; injection K as <- <-; destruct He as [<-|[]]; cbn.
  - intros v _. split; [|split; [|exact I]]; repeat constructor.
  - repeat constructor.
Qed.
Example C101_solutions_example :
  (exists ts, compile_equations isMin isMax ex_ty ex_secs = Ok ts /\ length ts = 4) /\
  solves ex_so false ex_secs /\ solves ex_so true ex_secs.
Proof.
  split; [eexists; split; [vm_compute; reflexivity|reflexivity]|]. split; intros l e [K|[K|[]]] He; try discriminate K; injection K as <-; destruct He as [<-|[]]; cbn.
  - intros v _. split; [repeat constructor|]. split; [|exact I]. repeat constructor.
  - repeat constructor.
Qed.

(** Every equation between single values gives one template, and no template has
    an iteration twice: the balance of equations and unknowns is kept. *)
Theorem C101_once : forall ty secs ts initial,
  compile_equations isMin isMax ty secs = Ok ts ->
  (forall t, In (initial, t) ts -> disj (is_ranges (ft_indices t))) /\
  ((forall s, In s secs -> Forall balanced (snd s)) ->
   length (filter (fun t => Bool.eqb (fst t) initial) ts) = written_in initial secs).
Proof.
  intros ty secs ts initial K. split.
  - intros t Ht. exact (compile_once ty secs ts initial t K Ht).
  - exact (compile_count ty secs ts initial K).
Qed.
Print Assumptions C101_once.
Example C101_once_example : (forall s, In s ex_secs -> Forall balanced (snd s)) /\ written_in false ex_secs = 3.
Proof. split; [|reflexivity]. intros s [<-|[<-|[]]]; repeat constructor. Qed.

(** The templates are between scalars if the sizes of the arrays are known. *)
Theorem C101_scalar : forall E (M : solution E) ty secs ts initial t p,
  compile_equations isMin isMax ty secs = Ok ts -> right_types M ty -> static_types M ty -> well_sized M secs ->
  (forall s, In s secs -> Forall balanced (snd s)) -> In (initial, t) ts -> iteration_of t p ->
  exists l r a b, ft_lhs t = [l] /\ ft_rhs t = [r] /\ lval M p l = VS a /\ lval M p r = VS b.
Proof. intros E M ty secs ts i t p K R S. exact (compile_scalar M ty R S secs ts i t p K). Qed.
Print Assumptions C101_scalar.
Example C101_scalar_example : static_types ex_so ex_ty.
Proof.
  split.
  - intros e p K. destruct e as [z|[|[|x]]|k|o l|e ks]; cbn in K; try discriminate; cbn; eauto.
    + destruct o as [|o]; destruct (map (lval ex_so p) l) as [|a [|b [|c m]]]; cbn; eauto; destruct a; cbn; eauto.
    + destruct (lval ex_so p e); cbn; eauto.
  - intros e d K. destruct e as [z|[|[|x]]|k|o l|e ks]; cbn in K; try discriminate; injection K as <-; repeat constructor; discriminate.
Qed.

(** ** What is compiled *)

(** Equations whose ranges are literals, ascend and are not empty are compiled.
    Missing: all others, see below. *)
Theorem C101_compiles_partial : forall ty secs,
  (forall e d n, ty e = Some d -> In (Some n) d -> (1 <= n)%Z) ->
  (forall s, In s secs -> Forall compilable (snd s)) -> exists ts, compile_equations isMin isMax ty secs = Ok ts.
Proof. exact compile_total. Qed.
Print Assumptions C101_compiles_partial.
Example C101_compiles_example :
  (forall e d n, ex_ty e = Some d -> In (Some n) d -> (1 <= n)%Z) /\ forall s, In s ex_secs -> Forall compilable (snd s).
Proof.
  split.
  - intros e d n K Hn. destruct e as [z|[|[|x]]|k|o l|e ks]; cbn in K; try discriminate; injection K as <-;
      destruct Hn as [Hn|[]]; injection Hn as <-; lia.
  - intros s [<-|[<-|[]]]; (constructor; [|constructor]); cbn; auto. split; [|auto].
    constructor; [|constructor]. exists 1%Z, 1%Z, 3%Z. cbn. repeat split; lia.
Qed.

(** An empty loop, a legal way to say nothing, ends the compilation, whatever it
    contains; so does an array without elements. *)
Theorem C101_empty_refuted :
  (forall ty x a b l r, (b < a)%N -> length l = 1 -> length r = 1 -> (forall e, ty e = None) ->
     compile_equations isMin isMax ty [(false, [SFor [(x, lit a b)] [SEq l r]])] = Bad) /\
  (forall x y, compile_equations isMin isMax (fun _ => Some [Some 0%Z]) [(false, [SEq [SName x] [SName y]])] = Bad).
Proof.
  split; [|reflexivity].
  intros ty x a b l r L Ll Lr T. unfold compile_equations.
  destruct l as [|l [|? ?]]; try discriminate. destruct r as [|r [|? ?]]; try discriminate.
  cbn. rewrite T. cbn. unfold create_templates, collect. cbn. unfold create_template. cbn.
  unfold dim_ranges. cbn. destruct (Z.ltb_spec (Z.of_N a) (Z.of_N b + 1)); [lia|]. reflexivity.
Qed.
Print Assumptions C101_empty_refuted.

(** A descending loop, as in for i in 3:-1:1, and one whose bound is a parameter. *)
Theorem C101_bounds_refuted : forall ty x a b n c body,
  compile_equations isMin isMax ty [(false, [SFor [(x, {| fr_begin := a; fr_step := Some (BNeg b); fr_end := c |})] body])] = Bad /\
  compile_equations isMin isMax ty [(false, [SFor [(x, {| fr_begin := BLit 1; fr_step := None; fr_end := BRef n |})] body])] = Bad.
Proof.
  intros ty x a b n c body. split; [|reflexivity].
  unfold compile_equations. cbn. unfold lower_range. cbn. destruct (lower_bound a) as [z| |] eqn:K; cbn; auto.
  destruct a; discriminate.
Qed.
Print Assumptions C101_bounds_refuted.

(** An if equation. *)
Theorem C101_if_refuted : forall ty c a b, compile_equations isMin isMax ty [(false, [SIf c a b])] = Bad.
Proof. reflexivity. Qed.
Print Assumptions C101_if_refuted.
(** All of these have solutions. *)
Example C101_refuted_example :
  solves ex_so false [(false, [SFor [(7, lit 2 1)] [SEq [SName 2] [SNum 5]]])] /\
  solves ex_so false [(false, [SFor [(7, {| fr_begin := BLit 3; fr_step := Some (BNeg (BLit 1)); fr_end := BLit 1 |})]
    [SEq [SApp 0 [SName 0; SName 7]] [SApp 0 [SName 1; SName 7]]]])] /\
  solves ex_so false [(false, [SIf (SNum 0) [SEq [SName 2] [SNum 5]] [SEq [SName 2] [SNum 4]]])].
Proof.
  split; [|split]; intros l e [K|[]] He; injection K as <-; destruct He as [<-|[]]; cbn.
  - intros v (k & Ek & [[_ H]|[H _]]); cbn -[Z.add Z.mul Z.of_N] in *; lia.
  - intros v _. split; [|exact I]. repeat constructor.
  - split; [intros []|]. intros _. split; [repeat constructor|exact I].
Qed.
