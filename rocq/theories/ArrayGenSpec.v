(** Array constructors, after section 10.4 of the Modelica specification. *)

From Coq Require Import List Arith ZArith Bool Lia.
Import ListNotations.
From Verif Require Import ArrayGenModel.

Section Spec.
Context {K : Type} (inj : Z -> K).

(** The values of a range: [b], [b + s], ... up to [e]. *)
Definition in_range (i : ind) (k : nat) : Prop :=
  (0 < i_step i /\ i_begin i + Z.of_nat k * i_step i <= i_end i
   \/ i_step i < 0 /\ i_end i <= i_begin i + Z.of_nat k * i_step i)%Z.
Definition has_size (i : ind) (n : nat) : Prop := forall k, k < n <-> in_range i k.

(** The sizes of an array constructor whose elements are scalars: the elements
    of [{a, b, ...}] have the same sizes; with several indices the last one is
    the outermost ([{e for i in A, j in B}] is [{{e for i in A} for j in B}]). *)
Inductive shaped : aexp K -> list nat -> Prop :=
| sh_leaf : forall vs v, shaped (Leaf (mkLeaf vs 0 v)) []
| sh_empty : shaped (Cons []) [0]
| sh_cons : forall c l ds, (forall x, In x (c :: l) -> shaped x ds) ->
    shaped (Cons (c :: l)) (S (length l) :: ds)
| sh_for : forall is_ b ns ds, Forall2 has_size is_ ns -> shaped b ds ->
    shaped (For is_ b) (rev ns ++ ds).

Definition set (r : nat -> K) (x : nat) (k : K) : nat -> K :=
  fun y => if y =? x then k else r y.

(** The indices take the values of their ranges. *)
Fixpoint bind (is_ : list ind) (idx : list nat) (r : nat -> K) : option ((nat -> K) * list nat) :=
  match is_, idx with
  | [], _ => Some (r, idx)
  | i :: is', k :: idx' =>
      bind is' idx' (set r (i_var i) (inj (i_begin i + Z.of_nat k * i_step i)%Z))
  | _ :: _, [] => None
  end.

(** The element at given indices (counted from zero). *)
Fixpoint elem (a : aexp K) (r : nat -> K) (idx : list nat) : option K :=
  match a with
  | Leaf l => match idx with [] => Some (l_val l r) | _ => None end
  | Cons l =>
      match idx with
      | i :: idx' => nth i (map (fun c => elem c r idx') l) None
      | [] => None
      end
  | For is_ b =>
      match bind (rev is_) idx r with
      | Some (r', idx') => elem b r' idx'
      | None => None
      end
  end.

(** Indices of an array with these sizes. *)
Definition inside (dims idx : list nat) : Prop := Forall2 lt idx dims.

(** The expressions and the indices of a constructor. *)
Fixpoint leaves (a : aexp K) : list (leaf K) :=
  match a with
  | Leaf l => [l]
  | Cons l => flat_map leaves l
  | For _ b => leaves b
  end.
Fixpoint indices (a : aexp K) : list ind :=
  match a with
  | Leaf _ => []
  | Cons l => flat_map indices l
  | For is_ b => is_ ++ indices b
  end.

(** Only its variables matter for an expression. *)
Definition reads_only (l : leaf K) : Prop :=
  forall r r', (forall x, In x (l_vars l) -> r x = r' x) -> l_val l r = l_val l r'.

(** The ranges are [1:n]; no expression reads an index; all variables are
    declared outside. *)
Definition counting (a : aexp K) : Prop :=
  forall i, In i (indices a) -> i_begin i = 1%Z /\ i_step i = 1%Z /\ (0 <= i_end i)%Z.
Definition index_free (a : aexp K) : Prop :=
  forall l i, In l (leaves a) -> In i (indices a) -> ~ In (i_var i) (l_vars l).
Definition closed (declared : nat -> bool) (a : aexp K) : Prop :=
  forall l x, In l (leaves a) -> In x (l_vars l) -> declared x = true.

(** The array that a constructor stands for. *)
Definition is_array (rho : nat -> K) (a : aexp K) (dims : list nat) (t : option (tensor K)) : Prop :=
  exists f, t = Some (dims, f) /\ forall idx, inside dims idx -> f idx = elem a rho idx
    /\ exists v, f idx = Some v.

(** A row of constants. *)
Definition row (vs : list K) : aexp K := Cons (map (fun v => Leaf (mkLeaf [] 0 (fun _ => v))) vs).

End Spec.
