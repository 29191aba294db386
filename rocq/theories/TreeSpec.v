(** What a well formed R-tree is: all the leaves at the same depth, every
    bounding box is the minimum one, fan-outs within bounds. *)
From Coq Require Import ZArith List Bool.
From Verif Require Import RangeModel MDRangeModel Result RTreeModel Spec.
Import ListNotations.

Section TreeSpec.
Variable T : Type.
Variable shape : T -> mdrange.
(** Admissible fan-outs of the root and of the other nodes. *)
Variable rootFan fan : nat -> Prop.

(** [tree_at root h n]: [n] is a well formed subtree of height [h]. *)
Inductive tree_at : bool -> nat -> node T -> Prop :=
| leaf_at : forall root i bd objects,
    is_mbr bd (map shape objects) ->
    (if root : bool then rootFan (length objects) else fan (length objects)) ->
    tree_at root 0 (Node T i bd [] objects)
| inner_at : forall root h i bd children,
    children <> [] -> Forall (tree_at false h) children ->
    is_mbr bd (map (nbd T) children) ->
    (if root : bool then rootFan (length children) else fan (length children)) ->
    tree_at root (S h) (Node T i bd children []).

Definition well_formed (t : rtree T) : Prop :=
  forall r, rt_root T t = Some r -> exists h, tree_at true h r.

(** The objects stored in the tree. *)
Definition stored (t : rtree T) : list T :=
  match rt_root T t with None => [] | Some r => objs T r end.
End TreeSpec.

Definition between (lo hi n : nat) : Prop := (lo <= n <= hi)%nat.

(** The trees of objects a program can build with the bounds [minE] and [maxE]
    on the fan-out: bulk loads, insertions and removals of objects whose boxes
    have rank [rk]. *)
Inductive reach (T : Type) (shape : T -> mdrange) (isEqual : T -> T -> bool) (minE maxE rk : nat)
  : rtree T -> Prop :=
| reach_empty : reach T shape isEqual minE maxE rk (rt_empty T)
| reach_bulk : forall l t, Forall (fun o => box_of rk (shape o)) l ->
    setFromObjects T shape minE maxE (rt_empty T) l = Ok t -> reach T shape isEqual minE maxE rk t
| reach_insert : forall t o t', reach T shape isEqual minE maxE rk t -> box_of rk (shape o) ->
    rt_insert T shape (fun l => l) minE maxE t o = Ok t' -> reach T shape isEqual minE maxE rk t'
| reach_remove : forall t o t', reach T shape isEqual minE maxE rk t -> box_of rk (shape o) ->
    rt_remove T shape isEqual (fun l => l) minE maxE t o = Ok t' ->
    reach T shape isEqual minE maxE rk t'.

(** The same without bulk loads. *)
Inductive grown (T : Type) (shape : T -> mdrange) (isEqual : T -> T -> bool) (minE maxE rk : nat)
  : rtree T -> Prop :=
| grown_empty : grown T shape isEqual minE maxE rk (rt_empty T)
| grown_insert : forall t o t', grown T shape isEqual minE maxE rk t -> box_of rk (shape o) ->
    rt_insert T shape (fun l => l) minE maxE t o = Ok t' -> grown T shape isEqual minE maxE rk t'
| grown_remove : forall t o t', grown T shape isEqual minE maxE rk t -> box_of rk (shape o) ->
    rt_remove T shape isEqual (fun l => l) minE maxE t o = Ok t' ->
    grown T shape isEqual minE maxE rk t'.
