(** Model of IndexSet.
    C++ source: /repo/lib/Modeling/IndexSet.cpp, on top of the R-tree of
    /repo/include/marco/Modeling/RTree.h.

    Iterating the ranges of an index set is the R-tree object iterator; the
    operations below use the list [objs] of the objects of the tree in that
    order, which is what the iterator yields (theorem C15). The assertions that
    re-check a whole operation point by point (lines 199-231, 276-278, 348-352)
    are properties, not part of the modelled outcome. *)
From Coq Require Import ZArith List Bool.
From Verif Require Import RangeModel MDRangeModel Result RTreeModel.
Import ListNotations.
Open Scope Z_scope.

(** RTree.cpp:6-14: the shape of a box is the box, equality is operator==. *)
Definition box_shape (b : mdrange) : mdrange := b.
Definition box_eq : mdrange -> mdrange -> bool := mdrange_eq.

(** llvm::sort with operator<. The algorithm is not modelled: boxes that
    compare equal are equal, so every sorting algorithm gives this result. *)
Fixpoint insert_sorted (x : mdrange) (l : list mdrange) : list mdrange :=
  match l with
  | [] => [x]
  | y :: l' => if mdrange_lt y x then y :: insert_sorted x l' else x :: y :: l'
  end.
Fixpoint sort_boxes (l : list mdrange) : list mdrange :=
  match l with
  | [] => []
  | x :: l' => insert_sorted x (sort_boxes l')
  end.

(** IndexSet.cpp:46-57, findCandidates: for the first element, the first later
    element it can be merged with, and the dimension. *)
Fixpoint find_partner (x : mdrange) (before after : list mdrange)
    : option (list mdrange * mdrange * list mdrange * nat) :=
  match after with
  | [] => None
  | y :: after' =>
      let '(can, d) := mdrange_canBeMerged x y in
      if can then Some (before, y, after', d)
      else find_partner x (before ++ [y]) after'
  end.
(** IndexSet.cpp:46-70: one round of the loop, [None] when no pair of ranges
    can be merged. The merged range takes the place of the first one. *)
Fixpoint merge_round (l : list mdrange) : option (list mdrange) :=
  match l with
  | [] => None
  | x :: l' =>
      match find_partner x [] l' with
      | Some (before, y, after, d) => Some (mdrange_merge x y d :: before ++ after)
      | None => match merge_round l' with
                | Some l'' => Some (x :: l'')
                | None => None
                end
      end
  end.
(** IndexSet.cpp:38-73, merge. Each round removes one range, so [length l]
    rounds are enough. *)
Fixpoint merge_loop (fuel : nat) (l : list mdrange) : list mdrange :=
  match fuel with
  | O => l
  | S f => match merge_round l with
           | Some l' => merge_loop f l'
           | None => l
           end
  end.
Definition merge_boxes (l : list mdrange) : list mdrange := merge_loop (length l) l.

(** IndexSet.cpp:911-917, postObjectInsertionHook. *)
Definition is_hook (l : list mdrange) : list mdrange := merge_boxes (sort_boxes l).

Notation inode := (node mdrange).
Notation iset := (rtree mdrange).

Section IndexSet.
(** RTree.h:503-507, the bounds on the number of elements of a node. *)
Variable minE maxE : nat.

Definition is_empty_set : iset := rt_empty mdrange.

(** The stored ranges, in iteration order (IndexSet.cpp:1094-1128). *)
Definition is_ranges (t : iset) : list mdrange :=
  match rt_root mdrange t with None => [] | Some r => objs mdrange r end.

(** RTree.h:562, empty. *)
Definition is_empty (t : iset) : bool :=
  match rt_root mdrange t with None => true | Some _ => false end.

(** RTree.h:577, rank. *)
Definition is_rank (t : iset) : nat := rt_rank mdrange t.

(** RTree.h:579-584, emptyCopy. *)
Definition is_emptyCopy (t : iset) : iset :=
  mkRT mdrange None 0 (rt_initialized mdrange t) (rt_rank mdrange t).

(** IndexSet.cpp:393-403, size. *)
Definition is_size (t : iset) : Z :=
  fold_left (fun acc b => acc + mdrange_size b) (is_ranges t) 0.

(** IndexSet.cpp:153-198: one step of the construction from a list of ranges.
    The back-scan stops at the first range that overlaps in no dimension. *)
Fixpoint backscan (current : mdrange) (rev_stored : list mdrange) : nat :=
  match rev_stored with
  | [] => 0
  | y :: l => if mdrange_anyDimensionOverlaps current y then S (backscan current l) else 0
  end.
Definition subtract_all (differences : list mdrange) (other : mdrange) : list mdrange :=
  flat_map (fun d => if mdrange_overlaps d other then mdrange_subtract d other else [d])
    differences.
Definition setFromRanges_step (stored : list mdrange) (current : mdrange) : list mdrange :=
  match stored with
  | [] => [current]
  | _ =>
      let idx := (length stored - backscan current (rev stored))%nat in
      let differences := fold_left subtract_all (skipn idx stored) [current] in
      firstn idx stored ++ sort_boxes (skipn idx stored ++ differences)
  end.
Definition nonOverlapping (ranges : list mdrange) : list mdrange :=
  fold_left setFromRanges_step (sort_boxes ranges) [].

(** IndexSet.cpp:145-232, setFromRanges on a default constructed set (the only
    use: the constructors and the results of the other operations). *)
Definition is_setFromRanges (ranges : list mdrange) : res iset :=
  setFromObjects mdrange box_shape minE maxE is_empty_set (nonOverlapping ranges).

(** IndexSet.cpp:77-85, construction from points. *)
Definition is_of_points (points : list point) : res iset :=
  is_setFromRanges (map mdrange_of_point points).

(** IndexSet.cpp:585-603, the search loop of overlaps(box). *)
Fixpoint overlapsLoop (fuel : nat) (b : mdrange) (stack : list inode) : res bool :=
  match stack with
  | [] => Ok false
  | n :: st =>
      match fuel with
      | O => NoFuel
      | S f =>
          if existsb (fun x => mdrange_overlaps x b) (nobjects mdrange n) then Ok true
          else overlapsLoop f b
                 (rev (filter (fun c => mdrange_overlaps (nbd mdrange c) b)
                         (nchildren mdrange n)) ++ st)
      end
  end.
(** IndexSet.cpp:576-604, overlaps(box). *)
Definition is_overlaps_box (t : iset) (b : mdrange) : res bool :=
  match rt_root mdrange t with
  | None => Ok false
  | Some r =>
      overlapsLoop (nodeCount mdrange r) b
        (if mdrange_overlaps (nbd mdrange r) b then [r] else [])
  end.

(** IndexSet.cpp:250-266 and 756-769: for every stored range, the pieces of
    [current] outside it either go on ([overlaps]) or are final. *)
Definition peel_pieces (t : iset) (range : mdrange) (pieces : list mdrange)
    : res (list mdrange * list mdrange) :=
  fold_res
    (fun acc diff =>
       o <- is_overlaps_box t diff ;;
       Ok (if o : bool then (fst acc ++ [diff], snd acc) else (fst acc, snd acc ++ [diff])))
    pieces ([], []).
Fixpoint peel (t : iset) (ranges : list mdrange) (current final : list mdrange)
    : res (list mdrange) :=
  match ranges with
  | [] => Ok final
  | r :: ranges' =>
      '(next, fin) <- peel_pieces t r (flat_map (fun c => mdrange_subtract c r) current) ;;
      peel t ranges' next (final ++ fin)
  end.

(** RTree.h:596-624 with the hook of the index set. *)
Definition is_tree_insert : iset -> mdrange -> res iset :=
  rt_insert mdrange box_shape is_hook minE maxE.

(** IndexSet.cpp:238-279, insert(box). *)
Definition is_insert (t : iset) (other : mdrange) : res iset :=
  _ <- assert_ok (negb (rt_initialized mdrange t) || Nat.eqb (length other) (is_rank t)) ;;
  pieces <- (match rt_root mdrange t with
             | None => Ok [other]
             | Some r => peel t (objs mdrange r) [other] []
             end) ;;
  fold_res is_tree_insert pieces t.

(** IndexSet.cpp:234-236, operator+=(Point). *)
Definition is_insert_point (t : iset) (p : point) : res iset :=
  is_insert t (mdrange_of_point p).

(** IndexSet.cpp:286-289 and RTree.h:626-631, operator+=(IndexSet); the two
    operands are distinct objects. *)
Definition is_insert_set (t other : iset) : res iset :=
  fold_res is_insert (is_ranges other) t.

(** IndexSet.cpp:325-345, the processing of one of the leaves collected before
    the loop. *)
Definition is_remove_leaf (other : mdrange) (t : iset) (i : nat) : res iset :=
  match rt_root mdrange t with
  | None => Bad
  | Some root =>
      '(n, ctx) <- of_option (locate mdrange i root []) ;;
      _ <- assert_ok (isLeaf mdrange n) ;;
      let differences :=
        flat_map (fun v => if mdrange_overlaps v other then mdrange_subtract v other else [v])
          (nobjects mdrange n) in
      let modified := existsb (fun v => mdrange_overlaps v other) (nobjects mdrange n) in
      let root' := plug mdrange (set_objects mdrange n differences) ctx in
      if modified then
        '(r, fr) <- adjustTree mdrange box_shape is_hook minE maxE
                      (collapse_fuel mdrange root') root' (rt_fresh mdrange t) i ;;
        Ok (mkRT mdrange r fr (rt_initialized mdrange t) (rt_rank mdrange t))
      else Ok (mkRT mdrange (Some root') (rt_fresh mdrange t)
                 (rt_initialized mdrange t) (rt_rank mdrange t))
  end.

(** IndexSet.cpp:313-353, remove(box). *)
Definition is_remove (t : iset) (other : mdrange) : res iset :=
  _ <- assert_ok (negb (rt_initialized mdrange t) || Nat.eqb (length other) (is_rank t)) ;;
  leaves <- walkOverlappingLeafNodes mdrange t other ;;
  fold_res (is_remove_leaf other) (map (nid mdrange) leaves) t.

(** IndexSet.cpp:309-311, operator-=(Point). *)
Definition is_remove_point (t : iset) (p : point) : res iset :=
  is_remove t (mdrange_of_point p).

(** RTree.h:674-708, IndexSet.cpp:612-650 and 703-739: the pairs of leaves
    reached by the simultaneous descent of two trees, in order. The stack holds
    pairs of nodes, top first. *)
Fixpoint pairWalk (fuel : nat) (stack : list (inode * inode)) : res (list (inode * inode)) :=
  match stack with
  | [] => Ok []
  | (l, r) :: st =>
      match fuel with
      | O => NoFuel
      | S f =>
          if isLeaf mdrange l then
            if isLeaf mdrange r then
              rest <- pairWalk f st ;; Ok ((l, r) :: rest)
            else
              pairWalk f
                (rev (map (fun c => (l, c))
                        (filter (fun c => mdrange_overlaps (nbd mdrange c) (nbd mdrange l))
                           (nchildren mdrange r))) ++ st)
          else
            pairWalk f
              (rev (map (fun c => (c, r))
                      (filter (fun c => mdrange_overlaps (nbd mdrange c) (nbd mdrange r))
                         (nchildren mdrange l))) ++ st)
      end
  end.
Definition pairLeaves (t other : iset) : res (list (inode * inode)) :=
  match rt_root mdrange t, rt_root mdrange other with
  | Some l, Some r =>
      pairWalk (nodeCount mdrange l * nodeCount mdrange r)
        (if mdrange_overlaps (nbd mdrange l) (nbd mdrange r) then [(l, r)] else [])
  | _, _ => Ok []
  end.
(** The overlapping pairs of objects of two leaves, in the order of the loops. *)
Definition overlappingObjects (p : inode * inode) : list (mdrange * mdrange) :=
  filter (fun q => mdrange_overlaps (fst q) (snd q))
    (list_prod (nobjects mdrange (fst p)) (nobjects mdrange (snd p))).

(** RTree.h:664-717 and IndexSet.cpp:363-373, operator-=(IndexSet). *)
Definition is_remove_set (t other : iset) : res iset :=
  pairs <- pairLeaves t other ;;
  fold_res is_remove (map snd (flat_map overlappingObjects pairs)) t.

(** IndexSet.cpp:606-653, overlaps(IndexSet). *)
Definition is_overlaps_set (t other : iset) : res bool :=
  pairs <- pairLeaves t other ;;
  Ok (existsb (fun p => match overlappingObjects p with [] => false | _ => true end) pairs).

(** IndexSet.cpp:441-462, the search for a stored range that overlaps the
    front of the queue. *)
Fixpoint findOverlapping (fuel : nat) (b : mdrange) (stack : list inode)
    : res (option mdrange) :=
  match stack with
  | [] => Ok None
  | n :: st =>
      match fuel with
      | O => NoFuel
      | S f =>
          match find (fun x => mdrange_overlaps b x) (nobjects mdrange n) with
          | Some x => Ok (Some x)
          | None =>
              findOverlapping f b
                (rev (filter (fun c => mdrange_overlaps (nbd mdrange c) b)
                        (nchildren mdrange n)) ++ st)
          end
      end
  end.
(** IndexSet.cpp:428-466, the queue loop of contains(box). *)
Fixpoint containsBoxLoop (fuel : nat) (root : inode) (queue : list mdrange) : res bool :=
  match queue with
  | [] => Ok true
  | range :: rest =>
      match fuel with
      | O => NoFuel
      | S f =>
          o <- findOverlapping (nodeCount mdrange root) range
                 (if mdrange_overlaps (nbd mdrange root) range then [root] else []) ;;
          match o with
          | Some x => containsBoxLoop f root (rest ++ mdrange_subtract range x)
          | None => Ok false
          end
      end
  end.
(** IndexSet.cpp:424-467, contains(box). Each iteration decreases the number of
    points of the queue. *)
Definition is_contains_box (t : iset) (b : mdrange) : res bool :=
  match rt_root mdrange t with
  | None => Ok false
  | Some r => containsBoxLoop (S (Z.to_nat (mdrange_size b))) r [b]
  end.
(** IndexSet.cpp:420-422, contains(Point). *)
Definition is_contains_point (t : iset) (p : point) : res bool :=
  is_contains_box t (mdrange_of_point p).

(** IndexSet.cpp:513-537: removal of all the ranges of the leaves. *)
Definition remainingAfter (b : mdrange) (lhsRanges : list mdrange) : list mdrange :=
  fold_left (fun rem x => flat_map (fun q => mdrange_subtract q x) rem) lhsRanges [b].
(** IndexSet.cpp:486-573, the loop of contains(IndexSet). Line 559 pushes the
    parent [lhs] instead of the child, once per overlapping child. *)
Fixpoint containsSetLoop (fuel : nat) (stack : list (inode * list inode)) : res bool :=
  match stack with
  | [] => Ok true
  | (rhs, lhsNodes) :: st =>
      match fuel with
      | O => NoFuel
      | S f =>
          if isLeaf mdrange rhs then
            if existsb (fun l => negb (isLeaf mdrange l)) lhsNodes then
              containsSetLoop f
                ((rhs, flat_map
                         (fun l => if isLeaf mdrange l then [l]
                                   else filter (fun c => mdrange_overlaps (nbd mdrange c)
                                                           (nbd mdrange rhs))
                                          (nchildren mdrange l)) lhsNodes) :: st)
            else if existsb
                      (fun o => match remainingAfter o (flat_map (nobjects mdrange) lhsNodes) with
                                | [] => false | _ => true end)
                      (nobjects mdrange rhs)
            then Ok false
            else containsSetLoop f st
          else
            let nodesFor := fun child =>
              flat_map
                (fun l => if isLeaf mdrange l
                          then (if mdrange_overlaps (nbd mdrange l) (nbd mdrange child)
                                then [l] else [])
                          else map (fun _ => l)
                                 (filter (fun lc => mdrange_overlaps (nbd mdrange lc)
                                                      (nbd mdrange child))
                                    (nchildren mdrange l)))
                lhsNodes in
            if existsb (fun child => match nodesFor child with [] => true | _ => false end)
                 (nchildren mdrange rhs)
            then Ok false
            else containsSetLoop f
                   (rev (map (fun child => (child, nodesFor child)) (nchildren mdrange rhs)) ++ st)
      end
  end.
(** IndexSet.cpp:469-574, contains(IndexSet). *)
Definition is_contains_set (fuel : nat) (t other : iset) : res bool :=
  match rt_root mdrange other with
  | None => Ok true
  | Some rr =>
      match rt_root mdrange t with
      | None => Ok false
      | Some lr =>
          if is_size t <? is_size other then Ok false
          else if negb (mdrange_contains (nbd mdrange lr) (nbd mdrange rr)) then Ok false
          else containsSetLoop fuel [(rr, [lr])]
      end
  end.

(** RTree.h:764-782: the leaves of a tree, provided that every node is within
    [bound]. *)
Fixpoint leavesWithin (fuel : nat) (bound : mdrange) (stack : list inode)
    : res (option (list inode)) :=
  match stack with
  | [] => Ok (Some [])
  | n :: st =>
      match fuel with
      | O => NoFuel
      | S f =>
          if negb (mdrange_contains bound (nbd mdrange n)) then Ok None
          else
            rest <- leavesWithin f bound (rev (nchildren mdrange n) ++ st) ;;
            Ok (match rest with
                | None => None
                | Some l => Some (if isLeaf mdrange n then n :: l else l)
                end)
      end
  end.
Fixpoint all_contained (t : iset) (l : list mdrange) : res bool :=
  match l with
  | [] => Ok true
  | b :: l' => c <- is_contains_box t b ;; if c : bool then all_contained t l' else Ok false
  end.
(** RTree.h:752-793, RTreeCRTP::contains(RTree), the one used by operator==:
    IndexSet::contains(IndexSet) does not override it (another signature). *)
Definition is_rtree_contains (t other : iset) : res bool :=
  match rt_root mdrange other with
  | None => Ok true
  | Some rr =>
      match rt_root mdrange t with
      | None => Ok false
      | Some lr =>
          o <- leavesWithin (nodeCount mdrange rr) (nbd mdrange lr) [rr] ;;
          match o with
          | None => Ok false
          | Some leaves => all_contained t (flat_map (nobjects mdrange) leaves)
          end
      end
  end.
(** RTree.h:549-555, operator==. *)
Definition is_eq (t other : iset) : res bool :=
  if negb (Nat.eqb (is_rank t) (is_rank other)) then Ok false
  else
    c <- is_rtree_contains t other ;;
    if c : bool then is_rtree_contains other t else Ok false.

(** IndexSet.cpp:115-143, compare. *)
Fixpoint compare_ranges (l1 l2 : list mdrange) : Z :=
  match l1, l2 with
  | x :: l1', y :: l2' =>
      let c := mdrange_compare x y in
      if negb (c =? 0) then c else compare_ranges l1' l2'
  | [], _ :: _ => -1
  | _ :: _, [] => 1
  | [], [] => 0
  end.
Definition is_compare (t other : iset) : Z := compare_ranges (is_ranges t) (is_ranges other).

(** IndexSet.cpp:668-686, the loop of intersect(box). *)
Fixpoint intersectLoop (fuel : nat) (b : mdrange) (stack : list inode) : res (list mdrange) :=
  match stack with
  | [] => Ok []
  | n :: st =>
      match fuel with
      | O => NoFuel
      | S f =>
          rest <- intersectLoop f b
                    (rev (filter (fun c => mdrange_overlaps (nbd mdrange c) b)
                            (nchildren mdrange n)) ++ st) ;;
          Ok (map (fun x => mdrange_intersect b x)
                (filter (fun x => mdrange_overlaps x b) (nobjects mdrange n)) ++ rest)
      end
  end.
(** IndexSet.cpp:655-687, intersect(box). *)
Definition is_intersect_box (t : iset) (b : mdrange) : res iset :=
  match rt_root mdrange t with
  | None => Ok t
  | Some r =>
      if mdrange_overlaps (nbd mdrange r) b then
        l <- intersectLoop (nodeCount mdrange r) b [r] ;;
        is_setFromRanges l
      else Ok (is_emptyCopy t)
  end.
(** IndexSet.cpp:689-742, intersect(IndexSet). *)
Definition is_intersect_set (t other : iset) : res iset :=
  match rt_root mdrange t with
  | None => Ok t
  | Some _ =>
      match rt_root mdrange other with
      | None => Ok (is_emptyCopy t)
      | Some _ =>
          pairs <- pairLeaves t other ;;
          is_setFromRanges
            (map (fun q => mdrange_intersect (fst q) (snd q)) (flat_map overlappingObjects pairs))
      end
  end.

(** IndexSet.cpp:744-772, complement. *)
Definition is_complement (t : iset) (other : mdrange) : res iset :=
  match rt_root mdrange t with
  | None => is_setFromRanges [other]
  | Some r =>
      l <- peel t (objs mdrange r) [other] [] ;;
      is_setFromRanges l
  end.

(** IndexSet.cpp:774-873: projections. [f] is the projection of one box. *)
Definition is_map_ranges (f : mdrange -> mdrange) (t : iset) : res iset :=
  match rt_root mdrange t with
  | None => Ok t
  | Some r => is_setFromRanges (map f (objs mdrange r))
  end.
Definition is_slice (t : iset) (bits : list bool) : res iset :=
  is_map_ranges (fun b => mdrange_slice b bits) t.
Definition is_takeFirst (t : iset) (n : nat) : res iset :=
  _ <- assert_ok (negb (rt_initialized mdrange t) || Nat.leb n (is_rank t)) ;;
  is_map_ranges (fun b => mdrange_takeFirst b n) t.
Definition is_takeLast (t : iset) (n : nat) : res iset :=
  _ <- assert_ok (negb (rt_initialized mdrange t) || Nat.leb n (is_rank t)) ;;
  is_map_ranges (fun b => mdrange_takeLast b n) t.
Definition is_dropFirst (t : iset) (n : nat) : res iset :=
  _ <- assert_ok (negb (rt_initialized mdrange t) || Nat.ltb n (is_rank t)) ;;
  is_map_ranges (fun b => mdrange_dropFirst b n) t.
Definition is_dropLast (t : iset) (n : nat) : res iset :=
  _ <- assert_ok (negb (rt_initialized mdrange t) || Nat.ltb n (is_rank t)) ;;
  is_map_ranges (fun b => mdrange_dropLast b n) t.

(** IndexSet.cpp:875-891, prepend. *)
Definition is_prepend (t other : iset) : res iset :=
  match rt_root mdrange t with
  | None => Ok t
  | Some r =>
      is_setFromRanges
        (flat_map (fun b => map (fun o => mdrange_prepend b o) (is_ranges other)) (objs mdrange r))
  end.
(** IndexSet.cpp:893-909, append. *)
Definition is_append (t other : iset) : res iset :=
  match rt_root mdrange t with
  | None => Ok t
  | Some r =>
      is_setFromRanges
        (flat_map (fun b => map (fun o => mdrange_append b o) (is_ranges other)) (objs mdrange r))
  end.
End IndexSet.
