(** Specification vocabulary, independent of the modelled operations: what a
    range and a box denote, and the usual orders. *)
From Coq Require Import ZArith List Bool.
From Verif Require Import RangeModel MDRangeModel.
Import ListNotations.
Open Scope Z_scope.

(** The integers denoted by the half-open range [begin, end). *)
Definition in_range (v : Z) (r : range) : Prop := rbegin r <= v < rend r.

(** The points denoted by a box: same rank, each coordinate in its range. *)
Definition in_box (p : point) (b : mdrange) : Prop := Forall2 in_range p b.

(** Lexicographic order on points of the same rank. *)
Inductive lex_lt : point -> point -> Prop :=
| lex_here : forall x y p q, x < y -> length p = length q -> lex_lt (x :: p) (y :: q)
| lex_next : forall x p q, lex_lt p q -> lex_lt (x :: p) (x :: q).

(** Two boxes have no point in common. *)
Definition disjoint_boxes (a b : mdrange) : Prop :=
  forall p, ~ (in_box p a /\ in_box p b).

(** A point belongs to some box of a list. *)
Definition in_boxes (p : point) (l : list mdrange) : Prop :=
  exists b, In b l /\ in_box p b.

(** The entries of a list selected by a bit vector. *)
Fixpoint select {A} (bits : list bool) (l : list A) : list A :=
  match bits, l with
  | true :: bits', x :: l' => x :: select bits' l'
  | false :: bits', _ :: l' => select bits' l'
  | _, _ => []
  end.

(** A box of rank [rk]: every range is non-empty. *)
Definition box_of (rk : nat) (b : mdrange) : Prop := mdrange_ok b /\ length b = rk.

(** The boxes of a list have no point in common, pairwise. *)
Definition disj (l : list mdrange) : Prop := ForallOrdPairs disjoint_boxes l.

(** The minimum bounding box of a list of boxes, in terms of points only. *)
Definition is_mbr (m : mdrange) (l : list mdrange) : Prop :=
  (forall b p, In b l -> in_box p b -> in_box p m)
  /\ (forall c, (forall b p, In b l -> in_box p b -> in_box p c) ->
      forall p, in_box p m -> in_box p c).

