(** * What the equations of a model say *)
From Coq Require Import ZArith NArith List Bool Arith.
From Verif Require Import RangeModel MDRangeModel Spec IndexSetModel IndexSetSpec ForModel.
Import ListNotations.

(** A value: a scalar or an array, whose elements count from zero. *)
Inductive val (E : Type) : Type :=
| VS (a : E)
| VA (dims : list Z) (f : list Z -> E).
Arguments VS {E} a.
Arguments VA {E} dims f.

Definition inside (dims idx : list Z) : Prop := Forall2 (fun n i => (0 <= i < n)%Z) dims idx.
Definition same_shape {E} (v w : val E) : Prop :=
  match v, w with
  | VS _, VS _ => True
  | VA d _, VA d' _ => d = d'
  | _, _ => False
  end.
Definition equal_values {E} (v w : val E) : Prop :=
  match v, w with
  | VS a, VS b => a = b
  | VA d f, VA d' g => d = d' /\ forall idx, inside d idx -> f idx = g idx
  | _, _ => False
  end.
Definition element_at {E} (v : val E) (idx : list Z) : val E :=
  match v with VS a => VS a | VA _ f => VS (f idx) end.

(** What the names and the operations stand for: a solution of a model gives the
    values of its variables. *)
Record solution (E : Type) := { so_num : Z -> val E; so_var : nat -> val E; so_int : nat -> Z;
                                so_op : nat -> list (val E) -> val E; so_true : val E -> Prop }.
Arguments so_num {E}. Arguments so_var {E}. Arguments so_int {E}. Arguments so_op {E}. Arguments so_true {E}.

(** ** The source *)
Definition scope := nat -> option Z.
Definition bound_to (rho : scope) (x : nat) (v : Z) : scope := fun y => if Nat.eqb y x then Some v else rho y.

Fixpoint sval {E} (M : solution E) (rho : scope) (e : sexp) : val E :=
  match e with
  | SNum z => so_num M z
  | SName x => match rho x with Some z => so_num M z | None => so_var M x end
  | SApp o l => so_op M o (map (sval M rho) l)
  end.
Fixpoint bval {E} (M : solution E) (b : bexp) : Z :=
  match b with
  | BLit n => Z.of_N n
  | BNeg b' => (- bval M b')%Z
  | BRef x => so_int M x
  end.

(** The values of a range: a, a + s, a + 2 s, ... up to b, or down to b. *)
Definition takes {E} (M : solution E) (r : frange) (v : Z) : Prop :=
  let s := match fr_step r with None => 1%Z | Some s => bval M s end in
  exists k : nat, v = (bval M (fr_begin r) + Z.of_nat k * s)%Z /\
    ((0 < s)%Z /\ (v <= bval M (fr_end r))%Z \/ (s < 0)%Z /\ (bval M (fr_end r) <= v)%Z).

(** All values of the indices, from the first to the last. *)
Fixpoint for_all {E} (M : solution E) (is : list (nat * frange)) (rho : scope) (P : scope -> Prop) : Prop :=
  match is with
  | [] => P rho
  | (x, r) :: is' => forall v, takes M r v -> for_all M is' (bound_to rho x v) P
  end.

(** [says R M rho e]: in every iteration of [e] the sides of every equation are
    related by [R]. *)
Fixpoint says {E} (R : val E -> val E -> Prop) (M : solution E) (rho : scope) (e : sequ) : Prop :=
  match e with
  | SEq l r => Forall2 R (map (sval M rho) l) (map (sval M rho) r)
  | SFor is body =>
      for_all M is rho (fun rho' => (fix all (l : list sequ) : Prop :=
        match l with [] => True | x :: l' => says R M rho' x /\ all l' end) body)
  | SIf c a b =>
      (so_true M (sval M rho c) -> (fix all (l : list sequ) : Prop :=
        match l with [] => True | x :: l' => says R M rho x /\ all l' end) a) /\
      (~ so_true M (sval M rho c) -> (fix all (l : list sequ) : Prop :=
        match l with [] => True | x :: l' => says R M rho x /\ all l' end) b)
  end.

(** A solution of the dynamic ([false]) or initial ([true]) sections. *)
Definition solves {E} (M : solution E) (initial : bool) (secs : list (bool * list sequ)) : Prop :=
  forall l e, In (initial, l) secs -> In e l -> says equal_values M (fun _ => None) e.
(** The sides of the equations have the same sizes. *)
Definition well_sized {E} (M : solution E) (secs : list (bool * list sequ)) : Prop :=
  forall i l e, In (i, l) secs -> In e l -> says same_shape M (fun _ => None) e.

(** ** Templates *)
Fixpoint lval {E} (M : solution E) (p : list Z) (e : lexp) : val E :=
  match e with
  | LNum z => so_num M z
  | LVar x => so_var M x
  | LInd k => so_num M (nth k p 0%Z)
  | LApp o l => so_op M o (map (lval M p) l)
  | LAt e ks => element_at (lval M p e) (map (fun k => nth k p 0%Z) ks)
  end.

(** The iterations of a template: the points of its indices, or a single one. *)
Definition iteration_of (t : ftmpl) (p : list Z) : Prop :=
  length p = ft_inductions t /\ (ft_inductions t = 0%nat \/ holds (ft_indices t) p).
Definition template_solved {E} (M : solution E) (t : ftmpl) : Prop :=
  forall p, iteration_of t p ->
    Forall2 equal_values (map (lval M p) (ft_lhs t)) (map (lval M p) (ft_rhs t)).

(** The types of the values are right. *)
Definition right_types {E} (M : solution E) (ty : lexp -> option (list (option Z))) : Prop :=
  forall e d p, ty e = Some d ->
    exists dims f, lval M p e = VA dims f /\
      Forall2 (fun o n => match o with Some m => n = m | None => True end) d dims.

(** ** Numbers of equations *)

(** Both sides of every equation have the same number of values. *)
Fixpoint balanced (e : sequ) : Prop :=
  match e with
  | SEq l r => length l = length r
  | SFor _ b => (fix all (l : list sequ) : Prop := match l with [] => True | x :: l' => balanced x /\ all l' end) b
  | SIf _ a b =>
      (fix all (l : list sequ) : Prop := match l with [] => True | x :: l' => balanced x /\ all l' end) a /\
      (fix all (l : list sequ) : Prop := match l with [] => True | x :: l' => balanced x /\ all l' end) b
  end.
(** The equations between single values that are written. *)
Fixpoint written (e : sequ) : nat :=
  match e with
  | SEq l _ => length l
  | SFor _ b => list_sum (map written b)
  | SIf _ a b => list_sum (map written a) + list_sum (map written b)
  end.
Definition written_in (initial : bool) (secs : list (bool * list sequ)) : nat :=
  list_sum (map (fun s => if Bool.eqb (fst s) initial then list_sum (map written (snd s)) else 0%nat) secs).

(** Values without a type of arrays are scalars, and all sizes are known. *)
Definition static_types {E} (M : solution E) (ty : lexp -> option (list (option Z))) : Prop :=
  (forall e p, ty e = None -> exists a, lval M p e = VS a) /\
  (forall e d, ty e = Some d -> Forall (fun o => o <> None) d).

(** ** What is compiled *)
Definition literal (b : bexp) (z : Z) : Prop := match b with BLit n => z = Z.of_N n | _ => False end.
(** A range of literals that is not empty and ascends. *)
Definition ascending (r : frange) : Prop :=
  exists a s b, literal (fr_begin r) a /\ literal (fr_end r) b /\
    match fr_step r with None => s = 1%Z | Some x => literal x s end /\ (0 < s)%Z /\ (a <= b)%Z.
Fixpoint compilable (e : sequ) : Prop :=
  match e with
  | SEq _ _ => True
  | SFor is b => Forall (fun i => ascending (snd i)) is /\
      (fix all (l : list sequ) : Prop := match l with [] => True | x :: l' => compilable x /\ all l' end) b
  | SIf _ _ _ => False
  end.
