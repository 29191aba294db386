(** Model of the R-tree.
    C++ source: /repo/include/marco/Modeling/RTree.h and
    /repo/lib/Modeling/RTree.cpp.

    Nodes carry an identifier that stands for their address: dereferencing a
    [Node *] is looking the identifier up in the tree owned by the root, and a
    freed node is one that is no longer in the tree, so that using a dangling
    pointer gives [Bad]. Parent pointers are not stored: the parent of a node
    is the node that owns it (the code keeps the two in agreement through
    [Node::add], [setParent] and the loops at RTree.h:995-997, 1033-1039). *)
From Coq Require Import ZArith List Bool.
From Verif Require Import RangeModel MDRangeModel Result.
Import ListNotations.
Open Scope Z_scope.

(** RTree.cpp:23-37, getMBR of two boxes. *)
Fixpoint getMBR2 (a b : mdrange) : mdrange :=
  match a, b with
  | r :: a', s :: b' =>
      mkRange (Z.min (rbegin r) (rbegin s)) (Z.max (rend r) (rend s)) :: getMBR2 a' b'
  | _, _ => []
  end.

(** RTree.h:98-112, getMBR of an array of shapes; [None] for an empty array
    (the code reads objects[0]). The trailing assertion is a theorem. *)
Definition getMBR (l : list mdrange) : option mdrange :=
  match l with
  | [] => None
  | x :: l' => Some (fold_left getMBR2 l' x)
  end.

(** RTree.h:123-126 and 194: coveredSpaceSize is stored in an [unsigned int]. *)
Definition coveredSpaceSize (b : mdrange) : Z := mdrange_size b mod 2 ^ 32.

(** std::max_element / std::min_element: position of the first element that no
    other element is greater (smaller) than. [i] is the position of the head of
    the remaining elements, [best] and [bi] the current candidate. *)
Fixpoint first_best_loop {A} (better : A -> A -> bool) (l : list A) (i : nat)
    (best : A) (bi : nat) : nat :=
  match l with
  | [] => bi
  | x :: l' =>
      if better x best then first_best_loop better l' (S i) x i
      else first_best_loop better l' (S i) best bi
  end.
Definition first_best {A} (better : A -> A -> bool) (l : list A) : option nat :=
  match l with
  | [] => None
  | x :: l' => Some (first_best_loop better l' 1 x 0)
  end.

(** Removal of the element at a position, returned with the rest. *)
Fixpoint take_nth {A} (n : nat) (l : list A) : option (A * list A) :=
  match l, n with
  | [], _ => None
  | x :: l', O => Some (x, l')
  | x :: l', S n' =>
      match take_nth n' l' with
      | None => None
      | Some (y, r) => Some (y, x :: r)
      end
  end.

Section SplitLists.
Variable U : Type.
Variable shp : U -> mdrange.

(** RTree.h:234-246, the waste of putting two entries together. *)
Definition pairWaste (x y : U) : Z :=
  let mbrSize := mdrange_size (getMBR2 (shp x) (shp y)) in
  let a := mdrange_size (shp x) in
  let b := mdrange_size (shp y) in
  if a + b <? mbrSize then mbrSize - a - b else 0.

(** RTree.h:232-250, the list of candidates (i, j, difference). *)
Fixpoint seedCandidates_inner (i j : nat) (x : U) (l : list U) : list (nat * nat * Z) :=
  match l with
  | [] => []
  | y :: l' => (i, j, pairWaste x y) :: seedCandidates_inner i (S j) x l'
  end.
Fixpoint seedCandidates (i : nat) (l : list U) : list (nat * nat * Z) :=
  match l with
  | [] => []
  | x :: l' => seedCandidates_inner i (S i) x l' ++ seedCandidates (S i) l'
  end.

(** RTree.h:228-258, pickSeeds. [None]: no candidate, the code dereferences
    the end iterator. *)
Definition pickSeeds (entries : list U) : option (nat * nat) :=
  let c := seedCandidates 0 entries in
  match first_best (fun x y => snd y <? snd x) c with
  | None => None
  | Some k => match nth_error c k with
              | Some (i, j, _) => Some (i, j)
              | None => None
              end
  end.

(** RTree.h:261-292, pickNext: position in the list of remaining entries. The
    boundaries of the new nodes are those of the seeds: they are not updated
    while the entries are distributed. *)
Definition nextCost (b1 b2 : mdrange) (x : U) : Z :=
  let d1 := mdrange_size (getMBR2 (shp x) b1) - mdrange_size b1 in
  let d2 := mdrange_size (getMBR2 (shp x) b2) - mdrange_size b2 in
  Z.max d1 d2 - Z.min d1 d2.
Definition pickNext (b1 b2 : mdrange) (remaining : list U) : option nat :=
  first_best (fun x y => y <? x) (map (nextCost b1 b2) remaining).

(** RTree.h:368-400: whether the entry goes to the first node. *)
Definition goesToFirst (b1 b2 : mdrange) (n1 n2 : nat) (x : U) : bool :=
  let e1 := mdrange_size (getMBR2 (shp x) b1) - coveredSpaceSize b1 in
  let e2 := mdrange_size (getMBR2 (shp x) b2) - coveredSpaceSize b2 in
  if e1 =? e2 then
    if coveredSpaceSize b1 =? coveredSpaceSize b2 then Nat.leb n1 n2
    else coveredSpaceSize b1 <? coveredSpaceSize b2
  else e1 <? e2.

(** RTree.h:340-401, the distribution loop. [first] and [second] are the
    contents of the new nodes, [remaining] the entries not yet moved in index
    order. [fuel] bounds the iterations. *)
Fixpoint splitLoop (fuel : nat) (minE : nat) (b1 b2 : mdrange)
    (first second remaining : list U) : res (list U * list U) :=
  match remaining with
  | [] => Ok (first, second)
  | _ =>
      if Nat.eqb (length first + length remaining) minE then
        Ok (first ++ remaining, second)
      else if Nat.eqb (length second + length remaining) minE then
        Ok (first, second ++ remaining)
      else
        match fuel with
        | O => NoFuel
        | S f =>
            k <- of_option (pickNext b1 b2 remaining) ;;
            '(x, rest) <- of_option (take_nth k remaining) ;;
            if goesToFirst b1 b2 (length first) (length second) x
            then splitLoop f minE b1 b2 (first ++ [x]) second rest
            else splitLoop f minE b1 b2 first (second ++ [x]) rest
        end
  end.

(** RTree.h:294-404, splitNode up to the assertions. *)
Definition splitEntries (minE : nat) (entries : list U) : res (list U * list U) :=
  '(i, j) <- of_option (pickSeeds entries) ;;
  (* the second seed is taken first so that the position of the first one does
     not move: i < j *)
  '(y, rest1) <- of_option (take_nth j entries) ;;
  '(x, rest) <- of_option (take_nth i rest1) ;;
  '(l1, l2) <- splitLoop (length rest) minE (shp x) (shp y) [x] [y] rest ;;
  _ <- assert_ok (Nat.leb minE (length l1)) ;;
  _ <- assert_ok (Nat.leb minE (length l2)) ;;
  Ok (l1, l2).
End SplitLists.
Arguments splitEntries {U}.
Arguments splitLoop {U}.
Arguments pickSeeds {U}.
Arguments pickNext {U}.
Arguments goesToFirst {U}.
Arguments seedCandidates {U}.
Arguments seedCandidates_inner {U}.
Arguments pairWaste {U}.
Arguments nextCost {U}.

Section RTree.
(** The type of the stored objects, RTreeInfo<T>::getShape, RTreeInfo<T>::isEqual
    and the effect of the virtual postObjectInsertionHook on the objects of the
    leaf it is called on. *)
Variable T : Type.
Variable shape : T -> mdrange.
Variable isEqual : T -> T -> bool.
Variable hook : list T -> list T.
(** RTree.h:503-507. *)
Variable minE maxE : nat.

(** RTree.h:115-131, class Node. *)
Inductive node := Node (id : nat) (bd : mdrange) (children : list node) (objects : list T).

Definition nid (n : node) := match n with Node i _ _ _ => i end.
Definition nbd (n : node) := match n with Node _ b _ _ => b end.
Definition nchildren (n : node) := match n with Node _ _ c _ => c end.
Definition nobjects (n : node) := match n with Node _ _ _ o => o end.

(** RTree.h:159-163, isLeaf. *)
Definition isLeaf (n : node) : bool :=
  match nchildren n with [] => true | _ => false end.

(** RTree.h:197-203, fanOut. *)
Definition fanOut (n : node) : nat :=
  if isLeaf n then length (nobjects n) else length (nchildren n).

(** RTree.h:169-177, computeBoundary. *)
Definition computeBoundary (n : node) : option mdrange :=
  if isLeaf n then getMBR (map shape (nobjects n)) else getMBR (map nbd (nchildren n)).

Definition set_bd (n : node) (b : mdrange) : node :=
  Node (nid n) b (nchildren n) (nobjects n).
Definition set_objects (n : node) (o : list T) : node :=
  Node (nid n) (nbd n) (nchildren n) o.
Definition set_children (n : node) (c : list node) : node :=
  Node (nid n) (nbd n) c (nobjects n).

(** RTree.h:182-190, recalcBoundary: the new node and whether the boundary
    changed. *)
Definition recalcBoundary (n : node) : res (node * bool) :=
  b <- of_option (computeBoundary n) ;;
  Ok (set_bd n b, negb (mdrange_eq b (nbd n))).

(** All the objects of a tree, in the order of the iterator. *)
Fixpoint objs (n : node) : list T :=
  match n with Node _ _ c o => o ++ flat_map objs c end.

(** All the node identifiers of a tree. *)
Fixpoint ids (n : node) : list nat :=
  match n with Node i _ c _ => i :: flat_map ids c end.

(** Number of nodes. *)
Fixpoint nodeCount (n : node) : nat :=
  match n with Node _ _ c _ => S (fold_right (fun x acc => nodeCount x + acc)%nat O c) end.

(** A position in the tree: the frames are the ancestors, from the parent up
    to the root, each with the siblings before and after the position. *)
Record frame := mkFrame {
  fid : nat; fbd : mdrange; fleft : list node; fright : list node; fobjs : list T }.

Definition plug1 (n : node) (f : frame) : node :=
  Node (fid f) (fbd f) (fleft f ++ n :: fright f) (fobjs f).
Fixpoint plug (n : node) (ctx : list frame) : node :=
  match ctx with
  | [] => n
  | f :: ctx' => plug (plug1 n f) ctx'
  end.

(** Dereferencing a [Node *]: the node with that identifier and its ancestors.
    [None]: the node has been freed. *)
Fixpoint locate (i : nat) (n : node) (ctx : list frame) : option (node * list frame) :=
  match n with
  | Node id bd ch ob =>
      if Nat.eqb id i then Some (n, ctx)
      else
        (fix go (left right : list node) : option (node * list frame) :=
           match right with
           | [] => None
           | c :: r =>
               match locate i c (mkFrame id bd left r ob :: ctx) with
               | Some z => Some z
               | None => go (left ++ [c]) r
               end
           end) [] ch
  end.

(** RTree.h:897-901, updateBoundaries from a position up. Returns the root. *)
Fixpoint updateBoundaries (n : node) (ctx : list frame) : res node :=
  '(n', changed) <- recalcBoundary n ;;
  if changed then
    match ctx with
    | [] => Ok n'
    | f :: ctx' => updateBoundaries (plug1 n' f) ctx'
    end
  else Ok (plug n' ctx).

(** RTree.h:928-951, the choice among at least two children. *)
Definition destinationKey (b : mdrange) (c : node) : Z * Z :=
  let mbr := getMBR2 (nbd c) b in
  (mdrange_size mbr - coveredSpaceSize (nbd c), mdrange_size mbr).
Definition destinationBetter (x y : Z * Z) : bool :=
  if fst x =? fst y then snd x <? snd y else fst x <? fst y.
(** RTree.h:917-952, chooseDestinationNode: position among the children. *)
Definition chooseDestination (nodes : list node) (b : mdrange) : res nat :=
  match nodes with
  | [] => Bad
  | [_] => Ok 0%nat
  | _ => of_option (first_best destinationBetter (map (destinationKey b) nodes))
  end.

(** Going down to the k-th child. *)
Definition down (n : node) (ctx : list frame) (k : nat) : res (node * list frame) :=
  c <- of_option (nth_error (nchildren n) k) ;;
  Ok (c, mkFrame (nid n) (nbd n) (firstn k (nchildren n)) (skipn (S k) (nchildren n))
           (nobjects n) :: ctx).

(** RTree.h:904-913, chooseLeaf. The fuel bounds the depth. *)
Fixpoint chooseLeaf (fuel : nat) (b : mdrange) (n : node) (ctx : list frame)
    : res (node * list frame) :=
  if isLeaf n then Ok (n, ctx)
  else match fuel with
       | O => NoFuel
       | S f =>
           k <- chooseDestination (nchildren n) b ;;
           '(c, ctx') <- down n ctx k ;;
           chooseLeaf f b c ctx'
       end.

(** RTree.h:294-411 and 1016-1042, splitNode: the two new nodes, created with
    the identifiers [fresh] and [fresh + 1]. *)
Definition splitNode (fresh : nat) (n : node) : res (node * node) :=
  if isLeaf n then
    '(l1, l2) <- splitEntries shape minE (nobjects n) ;;
    b1 <- of_option (getMBR (map shape l1)) ;;
    b2 <- of_option (getMBR (map shape l2)) ;;
    Ok (Node fresh b1 [] l1, Node (S fresh) b2 [] l2)
  else
    '(l1, l2) <- splitEntries nbd minE (nchildren n) ;;
    b1 <- of_option (getMBR (map nbd l1)) ;;
    b2 <- of_option (getMBR (map nbd l2)) ;;
    Ok (Node fresh b1 l1 [], Node (S fresh) b2 l2 []).

(** RTree.h:975-1013, splitNodeAndPropagate from a position. Returns the root
    and the next unused identifier. [*node = std::move( *newNodes.first)] keeps
    the address (identifier) of the split node; a split root is destroyed, and
    its two halves and the new root have new addresses. *)
Fixpoint splitNodeAndPropagate (fresh : nat) (n : node) (ctx : list frame)
    : res (node * nat) :=
  if Nat.ltb maxE (fanOut n) then
    '(first, second) <- splitNode fresh n ;;
    match ctx with
    | [] =>
        Ok (Node (S (S fresh)) (getMBR2 (nbd first) (nbd second)) [first; second] [],
            S (S (S fresh)))
    | f :: ctx' =>
        let first' := Node (nid n) (nbd first) (nchildren first) (nobjects first) in
        let p := Node (fid f) (fbd f) (fleft f ++ first' :: fright f ++ [second]) (fobjs f) in
        p' <- (if Nat.leb (fanOut p) maxE
               then ('(q, _) <- recalcBoundary p ;; Ok q) else Ok p) ;;
        splitNodeAndPropagate (S (S fresh)) p' ctx'
    end
  else
    match ctx with
    | [] => Ok (n, fresh)
    | f :: ctx' => r <- updateBoundaries (plug1 n f) ctx' ;; Ok (r, fresh)
    end.

(** State threaded through the collapse procedure: the root, the next unused
    address and the stack nodesToCollapse (top first). *)
Record cstate := mkC { c_root : node; c_fresh : nat; c_todo : list nat }.

(** Depth bound used as fuel for the descents. *)
Fixpoint depth (n : node) : nat :=
  match n with Node _ _ c _ => S (fold_right (fun x acc => Nat.max (depth x) acc) O c) end.

(** RTree.h:1081-1098, relocation of one orphaned object below [pid]. *)
Definition relocateObject (pid : nat) (s : cstate) (o : T) : res cstate :=
  '(p, ctx) <- of_option (locate pid (c_root s) []) ;;
  '(d, dctx) <- chooseLeaf (depth p) (shape o) p ctx ;;
  let d' := set_objects d (hook (nobjects d ++ [o])) in
  if Nat.ltb maxE (fanOut d') then
    '(r, fresh) <- splitNodeAndPropagate (c_fresh s) d' dctx ;;
    Ok (mkC r fresh (c_todo s))
  else if Nat.ltb (fanOut d') minE then
    Ok (mkC (plug d' dctx) (c_fresh s) (nid d' :: c_todo s))
  else
    r <- updateBoundaries d' dctx ;;
    Ok (mkC r (c_fresh s) (c_todo s)).

(** RTree.h:1104-1118, relocation of one orphaned node below [pid]. *)
Definition relocateNode (pid : nat) (s : cstate) (m : node) : res cstate :=
  '(p, ctx) <- of_option (locate pid (c_root s) []) ;;
  k <- chooseDestination (nchildren p) (nbd m) ;;
  '(d, dctx) <- down p ctx k ;;
  let d' := set_children d (nchildren d ++ [m]) in
  if Nat.ltb maxE (fanOut d') then
    '(r, fresh) <- splitNodeAndPropagate (c_fresh s) d' dctx ;;
    Ok (mkC r fresh (c_todo s))
  else
    r <- updateBoundaries d' dctx ;;
    Ok (mkC r (c_fresh s) (c_todo s)).

(** RTree.h:1063-1122, the inner loop. [i] is the node, [os] the objects to be
    relocated. Returns the state, the last node and the objects left. *)
Fixpoint collapseInner (fuel : nat) (i : nat) (os : list T) (s : cstate)
    : res (cstate * nat * list T) :=
  '(n, ctx) <- of_option (locate i (c_root s) []) ;;
  match ctx with
  | [] => Ok (s, i, os)
  | f :: ctx' =>
      if Nat.ltb (fanOut n) minE then
        match fuel with
        | O => NoFuel
        | S fl =>
            let p := Node (fid f) (fbd f) (fleft f ++ fright f) (fobjs f) in
            let s1 := mkC (plug p ctx') (c_fresh s) (c_todo s) in
            '(s2, os') <-
              (match os, nchildren p with
               | _ :: _, _ :: _ =>
                   s2 <- fold_res (relocateObject (fid f)) os s1 ;; Ok (s2, [])
               | _, _ => Ok (s1, os)
               end) ;;
            s3 <- fold_res (relocateNode (fid f)) (nchildren n) s2 ;;
            collapseInner fl (fid f) os' s3
        end
      else Ok (s, i, os)
  end.

(** RTree.h:1055-1133, the outer loop. *)
Fixpoint collapseOuter (fuel : nat) (s : cstate) : res (node * nat) :=
  match c_todo s with
  | [] => Ok (c_root s, c_fresh s)
  | i :: todo =>
      match fuel with
      | O => NoFuel
      | S fl =>
          '(n, ctx) <- of_option (locate i (c_root s) []) ;;
          let os := nobjects n in
          let s1 := mkC (plug (set_objects n []) ctx) (c_fresh s) todo in
          '(s2, j, os') <- collapseInner (depth (c_root s)) i os s1 ;;
          '(m, mctx) <- of_option (locate j (c_root s2) []) ;;
          r <- updateBoundaries m mctx ;;
          _ <- assert_ok (match os' with [] => true | _ => false end) ;;
          let r' := match nchildren r with [c] => c | _ => r end in
          collapseOuter fl (mkC r' (c_fresh s2) (c_todo s2))
      end
  end.

(** RTree.h:1046-1134, collapseNodeAndPropagate. [cfuel] bounds the number of
    collapsed leaves. *)
Definition collapseNodeAndPropagate (cfuel : nat) (root : node) (fresh i : nat)
    : res (node * nat) :=
  '(n, ctx) <- of_option (locate i root []) ;;
  match ctx with
  | [] => Ok (root, fresh)
  | _ => collapseOuter cfuel (mkC root fresh [i])
  end.

(** RTree.h:956-972, adjustTree on the node [i]. [None] is the empty tree. *)
Definition adjustTree (cfuel : nat) (root : node) (fresh i : nat)
    : res (option node * nat) :=
  '(n, ctx) <- of_option (locate i root []) ;;
  match ctx with
  | [] =>
      if Nat.eqb (fanOut n) 0 then Ok (None, fresh)
      else if Nat.ltb maxE (fanOut n) then
        '(r, fr) <- splitNodeAndPropagate fresh n ctx ;; Ok (Some r, fr)
      else r <- updateBoundaries n ctx ;; Ok (Some r, fresh)
  | _ =>
      if Nat.ltb (fanOut n) minE then
        '(r, fr) <- collapseNodeAndPropagate cfuel root fresh i ;; Ok (Some r, fr)
      else if Nat.ltb maxE (fanOut n) then
        '(r, fr) <- splitNodeAndPropagate fresh n ctx ;; Ok (Some r, fr)
      else r <- updateBoundaries n ctx ;; Ok (Some r, fresh)
  end.

(** RTree.h:503-516: the state of a tree. *)
Record rtree := mkRT { rt_root : option node; rt_fresh : nat;
                       rt_initialized : bool; rt_rank : nat }.

(** RTree.h:519, the empty tree. *)
Definition rt_empty : rtree := mkRT None 0 false 0.

(** Fuel for the collapse loop: every further collapsed leaf is due to a
    strict decrease of the number of objects. *)
Definition collapse_fuel (n : node) : nat := S (S (length (objs n))).

(** RTree.h:596-624, RTreeCRTP::insert(T). *)
Definition rt_insert (t : rtree) (o : T) : res rtree :=
  let rank := if rt_initialized t then rt_rank t else length (shape o) in
  _ <- assert_ok (Nat.eqb (length (shape o)) rank) ;;
  match rt_root t with
  | None =>
      Ok (mkRT (Some (Node (rt_fresh t) (shape o) [] (hook [o]))) (S (rt_fresh t)) true rank)
  | Some root =>
      '(n, ctx) <- chooseLeaf (depth root) (shape o) root [] ;;
      let n' := set_objects n (hook (nobjects n ++ [o])) in
      let root' := plug n' ctx in
      '(r, fr) <- adjustTree (collapse_fuel root') root' (rt_fresh t) (nid n) ;;
      Ok (mkRT r fr true rank)
  end.

(** RTree.h:626-631, RTreeCRTP::insert(Derived). *)
Definition rt_insert_all (t other : rtree) : res rtree :=
  match rt_root other with
  | None => Ok t
  | Some r => fold_res rt_insert (objs r) t
  end.

(** RTree.h:1165-1187, walkOverlappingNodes: the visited nodes, in order. The
    stack is a list whose head is the back of the vector. *)
Fixpoint walkNodes (fuel : nat) (range : mdrange) (stack : list node) : res (list node) :=
  match stack with
  | [] => Ok []
  | n :: st =>
      match fuel with
      | O => NoFuel
      | S f =>
          l <- walkNodes f range (nchildren n ++ st) ;;
          Ok (if mdrange_overlaps (nbd n) range then n :: l else l)
      end
  end.

(** RTree.h:1202-1211, walkOverlappingLeafNodes. *)
Definition walkOverlappingLeafNodes (t : rtree) (range : mdrange) : res (list node) :=
  match rt_root t with
  | None => Ok []
  | Some r =>
      l <- walkNodes (nodeCount r) range [r] ;;
      Ok (filter isLeaf l)
  end.

(** RTree.h:1226-1249, walkOverlappingObjects: the visited objects, in order. *)
Definition walkOverlappingObjects (t : rtree) (range : mdrange) : res (list T) :=
  l <- walkOverlappingLeafNodes t range ;;
  Ok (flat_map (fun n => filter (fun o => mdrange_overlaps (shape o) range) (nobjects n)) l).

(** RTree.h:644-661, the processing of one leaf by remove(T). [node] is a
    pointer collected before the loop. *)
Definition rt_remove_leaf (o : T) (t : rtree) (i : nat) : res rtree :=
  match rt_root t with
  | None => Bad
  | Some root =>
      '(n, ctx) <- of_option (locate i root []) ;;
      let newObjects := filter (fun x => negb (isEqual o x)) (nobjects n) in
      let modified := existsb (fun x => isEqual o x) (nobjects n) in
      let root' := plug (set_objects n newObjects) ctx in
      if modified then
        '(r, fr) <- adjustTree (collapse_fuel root') root' (rt_fresh t) i ;;
        Ok (mkRT r fr (rt_initialized t) (rt_rank t))
      else Ok (mkRT (Some root') (rt_fresh t) (rt_initialized t) (rt_rank t))
  end.

(** RTree.h:633-662, RTreeCRTP::remove(T). *)
Definition rt_remove (t : rtree) (o : T) : res rtree :=
  leaves <- walkOverlappingLeafNodes t (shape o) ;;
  fold_res (rt_remove_leaf o) (map nid leaves) t.

(** RTree.h:731-749, the search loop of contains(T). *)
Fixpoint containsLoop (fuel : nat) (o : T) (stack : list node) : res bool :=
  match stack with
  | [] => Ok false
  | n :: st =>
      match fuel with
      | O => NoFuel
      | S f =>
          let pushed := filter (fun c => mdrange_overlaps (nbd c) (shape o)) (nchildren n) in
          if existsb (fun x => mdrange_overlaps (shape x) (shape o) && isEqual o x) (nobjects n)
          then Ok true
          else containsLoop f o (rev pushed ++ st)
      end
  end.
(** RTree.h:719-750, RTreeCRTP::contains(T). *)
Definition rt_contains (t : rtree) (o : T) : res bool :=
  match rt_root t with
  | None => Ok false
  | Some r =>
      containsLoop (nodeCount r) o
        (if mdrange_overlaps (nbd r) (shape o) then [r] else [])
  end.

(** RTree.h:414-493, ObjectIterator: the stack [nodes] (top first) and
    [objectIndex]. RTree.h:430-437 / 478-485: descending to the next leaf. *)
Fixpoint itDescend (fuel : nat) (stack : list node) : res (list node) :=
  match stack with
  | [] => Ok []
  | n :: st =>
      if isLeaf n then Ok stack
      else match fuel with
           | O => NoFuel
           | S f => itDescend f (nchildren n ++ st)
           end
  end.
(** The loop [for (it = objectsBegin(); it != objectsEnd(); ++it)], from a
    state where the top of the stack is a leaf (or the stack is empty). *)
Fixpoint itRun (fuel : nat) (stack : list node) (objectIndex : nat) : res (list T) :=
  match stack with
  | [] => Ok []
  | n :: st =>
      match fuel with
      | O => NoFuel
      | S f =>
          x <- of_option (nth_error (nobjects n) objectIndex) ;;
          if Nat.eqb (S objectIndex) (length (nobjects n)) then
            st' <- itDescend f st ;;
            l <- itRun f st' 0 ;;
            Ok (x :: l)
          else
            l <- itRun f stack (S objectIndex) ;;
            Ok (x :: l)
      end
  end.
(** RTree.h:587-593 and 426-441: iteration over all the objects. *)
Definition rt_iterate (fuel : nat) (t : rtree) : res (list T) :=
  match rt_root t with
  | None => Ok []
  | Some r => st <- itDescend fuel [r] ;; itRun fuel st 0
  end.

(** RTree.h:1256-1350, isValid without the parent pointers (see the header). *)
Fixpoint mbrInvariant (n : node) : bool :=
  match n with
  | Node _ b c o =>
      match (if isLeaf n then getMBR (map shape o) else getMBR (map nbd c)) with
      | Some m => mdrange_eq b m
      | None => false
      end && forallb mbrInvariant c
  end.
Fixpoint fanOutInvariant (n : node) : bool :=
  match n with
  | Node _ b c o =>
      Nat.leb minE (fanOut n) && Nat.leb (fanOut n) maxE && forallb fanOutInvariant c
  end.
Definition rt_isValid (t : rtree) : bool :=
  match rt_root t with
  | None => true
  | Some r => mbrInvariant r && forallb fanOutInvariant (nchildren r)
  end.

(** RTree.h:810-827: groups of [minE] objects, the remaining ones appended to
    the first groups. *)
Fixpoint chunk {A} (fuel k : nat) (l : list A) : list (list A) :=
  match fuel with
  | O => []
  | S f => match l with
           | [] => []
           | _ => firstn k l :: chunk f k (skipn k l)
           end
  end.
(** RTree.h:824-827. [None]: more remaining objects than groups, the code
    writes past the end of [nodes]. *)
Fixpoint distribute {A} (groups : list (list A)) (rest : list A) {struct rest}
    : option (list (list A)) :=
  match rest, groups with
  | [], _ => Some groups
  | x :: r, g :: gs =>
      match distribute gs r with
      | Some gs' => Some ((g ++ [x]) :: gs')
      | None => None
      end
  | _ :: _, [] => None
  end.
Definition bulkGroups (objects : list T) : option (list (list T)) :=
  if Nat.ltb maxE (length objects) then
    let q := Nat.div (length objects) minE in
    distribute (chunk q minE (firstn (q * minE) objects)) (skipn (q * minE) objects)
  else Some [objects].

(** Leaf nodes with identifiers from [fresh] on. *)
Fixpoint mkLeaves (fresh : nat) (groups : list (list T)) : res (list node) :=
  match groups with
  | [] => Ok []
  | g :: gs =>
      b <- of_option (getMBR (map shape g)) ;;
      l <- mkLeaves (S fresh) gs ;;
      Ok (Node fresh b [] g :: l)
  end.
(** RTree.h:844-857: parents of up to [maxE] nodes. *)
Fixpoint mkParents (fresh : nat) (groups : list (list node)) : res (list node) :=
  match groups with
  | [] => Ok []
  | g :: gs =>
      b <- of_option (getMBR (map nbd g)) ;;
      l <- mkParents (S fresh) gs ;;
      Ok (Node fresh b g [] :: l)
  end.
(** RTree.h:841-860. *)
Fixpoint bulkLevels (fuel : nat) (fresh : nat) (nodes : list node) : res (list node * nat) :=
  if Nat.ltb maxE (length nodes) then
    match fuel with
    | O => NoFuel
    | S f =>
        let g := chunk (length nodes) maxE nodes in
        ps <- mkParents fresh g ;;
        bulkLevels f (fresh + length g) ps
    end
  else Ok (nodes, fresh).

(** RTree.h:796-877, setFromObjects. The final assertion [isValid()] is not
    part of the model's outcome: it is a property (C18). *)
Definition setFromObjects (t : rtree) (objects : list T) : res rtree :=
  match objects with
  | [] => Ok (mkRT None (rt_fresh t) (rt_initialized t) (rt_rank t))
  | o :: _ =>
      groups <- of_option (bulkGroups objects) ;;
      leaves <- mkLeaves 0 groups ;;
      '(nodes, fresh) <- bulkLevels (length leaves) (length groups) leaves ;;
      match nodes with
      | [] => Bad
      | [r] => Ok (mkRT (Some r) fresh true (length (shape o)))
      | _ =>
          b <- of_option (getMBR (map nbd nodes)) ;;
          Ok (mkRT (Some (Node fresh b nodes [])) (S fresh) true (length (shape o)))
      end
  end.

End RTree.
