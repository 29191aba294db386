(** Specification vocabulary for the access functions. *)
From Coq Require Import ZArith List Bool.
From Verif Require Import RangeModel MDRangeModel Result BoxSetModel AccessModel Spec.
Import ListNotations.
Open Scope Z_scope.

(** Every dimension of the expression is below [n]. *)
Fixpoint dims_below (n : nat) (e : aexpr) : Prop :=
  match e with
  | ADim d => (d < n)%nat
  | AConst _ => True
  | AAdd a b | AMul a b | AFloorDiv a b | ACeilDiv a b | AMod a b =>
      dims_below n a /\ dims_below n b
  end.

(** The expression contains no division and no remainder. *)
Fixpoint no_div (e : aexpr) : Prop :=
  match e with
  | ADim _ | AConst _ => True
  | AAdd a b | AMul a b => no_div a /\ no_div b
  | AFloorDiv _ _ | ACeilDiv _ _ | AMod _ _ => False
  end.

(** What is assumed of MLIR: rewriting keeps the value wherever the expression
    has one, adds neither dimensions nor divisions, puts d + c (and c + d) in
    the form d + c with c different from zero, or d, and leaves that form
    alone. *)
Record mlir_ok (m : mlir) : Prop := {
  canon_eval : forall p e v, aeval p e = Some v -> aeval p (canon m e) = Some v;
  simp_eval : forall n p e v, aeval p e = Some v -> aeval p (simp m n e) = Some v;
  canon_nodiv : forall e, no_div e -> no_div (canon m e);
  simp_nodiv : forall n e, no_div e -> no_div (simp m n e);
  canon_dims : forall n e, dims_below n e -> dims_below n (canon m e);
  simp_dims : forall k n e, dims_below n e -> dims_below n (simp m k e);
  canon_dc : forall d c, canon m (AAdd (ADim d) (AConst c)) =
               if c =? 0 then ADim d else AAdd (ADim d) (AConst c);
  canon_cd : forall d c, canon m (AAdd (AConst c) (ADim d)) =
               if c =? 0 then ADim d else AAdd (ADim d) (AConst c);
  canon_mulc : forall c k, canon m (AMul (AConst c) (AConst k)) = AConst (c * k);
  simp_const : forall n c, simp m n (AConst c) = AConst c;
  simp_dim : forall n d, simp m n (ADim d) = ADim d;
  simp_dc : forall n d c, c <> 0 ->
    simp m n (AAdd (ADim d) (AConst c)) = AAdd (ADim d) (AConst c) }.

(** A dimension access made of constants, dimensions, sums, differences and
    products only, with the dimensions below [n]. *)
Fixpoint plain (n : nat) (a : dacc) : Prop :=
  match a with
  | DConst _ => True
  | DDim d => (d < n)%nat
  | DAdd x y | DSub x y | DMul x y => plain n x /\ plain n y
  | DDiv _ _ | DRange _ | DIndices _ _ _ _ => False
  end.

(** The dimensions of an access are below [n]. *)
Fixpoint acc_below (n : nat) (a : dacc) : Prop :=
  match a with
  | DDim d => (d < n)%nat
  | DAdd x y | DSub x y | DMul x y | DDiv x y => acc_below n x /\ acc_below n y
  | DConst _ | DRange _ | DIndices _ _ _ _ => True
  end.

(** The access functions a user gets from AccessFunction::build, with [n]
    dimensions and [k] results. *)
Inductive built_access (m : mlir) : nat -> nat -> afun -> Prop :=
| built_from_map : forall n es f,
    Forall (dims_below n) es -> af_build_map m n es = Ok f ->
    built_access m n (length es) f
| built_from_accesses : forall n rs f,
    Forall (acc_below n) rs -> af_build m n rs = Ok f ->
    built_access m n (length rs) f.

(** The same, for affine accesses without divisions and with some result. *)
Inductive affine_access (m : mlir) : nat -> nat -> afun -> Prop :=
| affine_from_map : forall n es f,
    Forall (dims_below n) es -> Forall no_div es -> es <> [] -> af_build_map m n es = Ok f ->
    affine_access m n (length es) f
| affine_from_accesses : forall n rs f,
    Forall (plain n) rs -> rs <> [] -> af_build m n rs = Ok f ->
    affine_access m n (length rs) f.

(** Mapping the point [p] gives exactly the point [q]. *)
Definition maps_to (f : afun) (p q : point) : Prop :=
  exists s, af_map_point f p = Ok s /\ forall x, in_boxes x s <-> x = q.

(** The point [p] accesses the element [q] (for accesses to several elements). *)
Definition accesses (f : afun) (p q : point) : Prop :=
  exists s, af_map_point f p = Ok s /\ in_boxes q s.

(** The value of the results of an affine map at a point. *)
Fixpoint affine_values (p : point) (es : list aexpr) : option point :=
  match es with
  | [] => Some []
  | e :: es' => match aeval p e, affine_values p es' with
                | Some v, Some q => Some (v :: q)
                | _, _ => None
                end
  end.

(** The value at a point of a plain access, of a list of plain accesses. *)
Fixpoint dval (p : point) (a : dacc) : option Z :=
  match a with
  | DConst c => Some c
  | DDim d => nth_error p d
  | DAdd x y => match dval p x, dval p y with Some u, Some v => Some (u + v) | _, _ => None end
  | DSub x y => match dval p x, dval p y with Some u, Some v => Some (u - v) | _, _ => None end
  | DMul x y => match dval p x, dval p y with Some u, Some v => Some (u * v) | _, _ => None end
  | _ => None
  end.
Fixpoint dvals (p : point) (l : list dacc) : option point :=
  match l with
  | [] => Some []
  | a :: l' => match dval p a, dvals p l' with Some v, Some q => Some (v :: q) | _, _ => None end
  end.

(** No dimension is used by two results of a rotation-translation (the other
    functions need nothing). *)
Definition one_use (f : afun) : Prop :=
  match f with
  | AFRoto _ rs => NoDup (flat_map adims rs)
  | _ => True
  end.

(** The iteration spaces an access refers to: identity, content, dimension and
    dependencies. *)
Fixpoint iteration_spaces (a : dacc) : list (nat * bset * nat * list nat) :=
  match a with
  | DAdd x y | DSub x y | DMul x y | DDiv x y => iteration_spaces x ++ iteration_spaces y
  | DIndices i s d deps => [(i, s, d, deps)]
  | _ => []
  end.
Definition function_spaces (f : afun) : list (nat * bset * nat * list nat) :=
  match f with
  | AFConstant _ rs | AFGeneric _ rs => flat_map iteration_spaces rs
  | _ => []
  end.
(** Two references of [f] and [g] to the same dimension of the same iteration
    space (the same address) see the same content and dependencies. *)
Definition same_objects (f g : afun) : Prop :=
  forall i s d deps s' deps', In (i, s, d, deps) (function_spaces f) ->
    In (i, s', d, deps') (function_spaces g) -> s = s' /\ deps = deps'.

(** [t] is the set of the elements accessed from [s]. *)
Definition image_of (f : afun) (s t : bset) : Prop :=
  forall q, in_boxes q t <-> exists p, in_boxes p s /\ accesses f p q.

(** [r] is the set of the iterations of [parent] that access some element of
    [accessed]. *)
Definition preimage_of (f : afun) (accessed parent r : bset) : Prop :=
  forall p, in_boxes p r <->
    in_boxes p parent /\ exists q, accesses f p q /\ in_boxes q accessed.

(** The functions that have no constant result, unless the function is of the
    general kind. *)
Definition no_constant_result (f : afun) : Prop :=
  match f with
  | AFRoto _ rs => forall c, ~ In (AConst c) rs
  | AFGeneric _ _ => True
  | _ => False
  end.

(** The iterations are one box, or each dimension is used by some result of a
    rotation-translation (the other functions need nothing). *)
Definition regular (f : afun) (parent : bset) : Prop :=
  match f with
  | AFRoto n rs => (exists b, parent = [b]) \/ forall d, (d < n)%nat -> In d (flat_map adims rs)
  | _ => True
  end.

(** At the point [p], the access [a] reaches the coordinate [v]. *)
Inductive reads (p : point) : dacc -> Z -> Prop :=
| reads_const : forall c, reads p (DConst c) c
| reads_dim : forall d v, nth_error p d = Some v -> reads p (DDim d) v
| reads_add : forall a b u v, reads p a u -> reads p b v -> reads p (DAdd a b) (u + v)
| reads_sub : forall a b u v, reads p a u -> reads p b v -> reads p (DSub a b) (u - v)
| reads_mul : forall a b u v, reads p a u -> reads p b v -> reads p (DMul a b) (u * v)
| reads_range : forall r v, in_range v r -> reads p (DRange r) v
| reads_indices : forall i s d deps x v, in_boxes x s -> nth_error x d = Some v ->
    reads p (DIndices i s d deps) v.

(** Accesses without divisions and without dependent iteration spaces; the
    ranges and the iteration spaces are not empty. *)
Fixpoint independent (n : nat) (a : dacc) : Prop :=
  match a with
  | DConst _ => True
  | DDim d => (d < n)%nat
  | DAdd x y | DSub x y | DMul x y => independent n x /\ independent n y
  | DDiv _ _ => False
  | DRange r => range_ok r
  | DIndices _ s d deps => deps = [] /\ s <> [] /\ exists rk, Forall (box_of rk) s /\ (d < rk)%nat
  end.

(** An access made of arithmetic on dimensions, or one range, or one iteration
    space. *)
Definition single_access (n : nat) (a : dacc) : Prop :=
  plain n a \/ match a with DRange _ | DIndices _ _ _ _ => independent n a | _ => False end.

(** A simplifier with the assumed properties: it only does what is required. *)
Definition canon0 (e : aexpr) : aexpr :=
  match e with
  | AAdd (ADim d) (AConst c) | AAdd (AConst c) (ADim d) =>
      if c =? 0 then ADim d else AAdd (ADim d) (AConst c)
  | AAdd (AConst a) (AConst b) => AConst (a + b)
  | AMul (AConst a) (AConst b) => AConst (a * b)
  | AAdd (AAdd x (AConst a)) (AConst b) => if a + b =? 0 then x else AAdd x (AConst (a + b))
  | _ => e
  end.
Definition mlir0 : mlir := mkMlir canon0 (fun _ e => e).
