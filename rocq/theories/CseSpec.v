(** * Values of expressions with calls *)
From Coq Require Import ZArith List Bool Arith.
From Verif Require Import RangeModel MDRangeModel Spec CseModel.
Import ListNotations.

(** A meaning of the variables, the operations, the functions and the
    reductions, over any values (arrays are values too). *)
Record meaning (V : Type) := {
  m_num : Z -> V;
  m_var : nat -> V;
  m_op : nat -> list V -> V;
  m_fun : nat -> list V -> V;
  m_red : nat -> list V -> (list V -> V) -> V }.
Arguments m_num {V}. Arguments m_var {V}. Arguments m_op {V}. Arguments m_fun {V}. Arguments m_red {V}.

(** The value of an expression in the iteration [p]; [rs] holds the inductions
    of the reductions around it, the innermost first. *)
Fixpoint xeval {V} (M : meaning V) (p : list Z) (rs : list (list V)) (e : xexp) : V :=
  match e with
  | XNum z => m_num M z
  | XVar x => m_var M x
  | XInd k => m_num M (nth k p 0%Z)
  | XArg d k => nth k (nth d rs []) (m_num M 0%Z)
  | XApp o l => m_op M o (map (xeval M p rs) l)
  | XCall f l => m_fun M f (map (xeval M p rs) l)
  | XRed a l b => m_red M a (map (xeval M p rs) l) (fun vs => xeval M p (vs :: rs) b)
  end.

(** A reduction depends on the values of its body only. *)
Definition extensional {V} (M : meaning V) : Prop :=
  forall a l g h, (forall vs, g vs = h vs) -> m_red M a l g = m_red M a l h.

(** The inductions of the equation an expression uses, from left to right. *)
Fixpoint uses (e : xexp) : list nat :=
  match e with
  | XNum _ | XVar _ | XArg _ _ => []
  | XInd k => [k]
  | XApp _ l | XCall _ l => flat_map uses l
  | XRed _ l b => flat_map uses l ++ uses b
  end.

(** Every reduction has one induction and none inside it, and the inductions of
    reductions are used inside them only. *)
Fixpoint plain (inside : bool) (e : xexp) : bool :=
  match e with
  | XNum _ | XVar _ | XInd _ => true
  | XArg d k => inside && Nat.eqb d 0 && Nat.eqb k 0
  | XApp _ l | XCall _ l => forallb (plain inside) l
  | XRed _ l b => negb inside && Nat.eqb (length l) 1 && forallb (plain inside) l && plain true b
  end.

(** Where one call uses an induction twice the other does too. *)
Definition follows (rep call : xexp) : Prop :=
  forall n m k i j, nth_error (uses rep) n = Some k -> nth_error (uses rep) m = Some k ->
    nth_error (uses call) n = Some i -> nth_error (uses call) m = Some j -> i = j.

(** An element of an array. *)
Definition element (sizes : list Z) (idx : list Z) : Prop :=
  Forall2 (fun n i => (0 <= i < n)%Z) sizes idx.
(** Subscripts that are inductions plus constants. *)
Definition subscripts (l : list (nat * Z)) (p : list Z) : list Z := map (fun s => (nth (fst s) p 0 + snd s)%Z) l.

(** The new variable [v] satisfies its equation in every iteration. *)
Definition driven {V} (M : meaning V) (c : cse) (v : list Z -> V) : Prop :=
  forall q, in_box q (cs_box c) -> v (subscripts (cs_lhs c) q) = xeval M q [] (cs_rhs c).

(** The iterations of the equation of a call: those of all its instances. *)
Definition iterates (ts : list ctmpl) (id : nat * nat) (p : list Z) : Prop :=
  exists t s, nth_error ts (fst id) = Some t /\ In s (ct_spaces t) /\
    match s with
    | [] => p = []
    | _ :: _ => exists r, In r s /\ in_box p r
    end.

(** The instances of every equation have one range or none, and no range is
    empty. *)
Definition one_range (ts : list ctmpl) : Prop :=
  forall t s, In t ts -> In s (ct_spaces t) -> (length s <= 1)%nat /\ Forall mdrange_ok s.

(** The inductions of a template are those of its instances. *)
Definition inductions_ok (ts : list ctmpl) : Prop :=
  forall t e k s, In t ts -> In e (ct_sides t) -> In k (uses e) -> In s (ct_spaces t) ->
    s <> [] /\ forall r, In r s -> (k < length r)%nat.
