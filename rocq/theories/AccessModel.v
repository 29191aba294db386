(** Model of the access functions.
    C++ sources: /repo/lib/Modeling/AccessFunction*.cpp and
    /repo/lib/Modeling/DimensionAccess*.cpp.

    MLIR's affine expressions are not part of the repository. They are modelled
    as terms with their mathematical meaning; the rewriting that MLIR performs
    when it builds an expression ([canon]) and in simplifyAffineExpr /
    simplifyAffineMap ([simp]) is a parameter of the model, of which the
    theorems only assume that it keeps the meaning (and, for d + c, the shape).
    Index sets are [bset] (see BoxSetModel.v). *)
From Coq Require Import ZArith List Bool.
From Verif Require Import RangeModel MDRangeModel Result BoxSetModel.
Import ListNotations.
Open Scope Z_scope.

(** mlir::AffineExpr without symbols. *)
Inductive aexpr :=
| ADim (d : nat)
| AConst (c : Z)
| AAdd (a b : aexpr)
| AMul (a b : aexpr)
| AFloorDiv (a b : aexpr)
| ACeilDiv (a b : aexpr)
| AMod (a b : aexpr).

(** The value of an affine expression at a point (mlir::AffineMap::compose of
    constants); [None]: missing dimension or division by zero. *)
Fixpoint aeval (p : point) (e : aexpr) : option Z :=
  let bin f a b := match aeval p a, aeval p b with
                   | Some x, Some y => f x y
                   | _, _ => None
                   end in
  match e with
  | ADim d => nth_error p d
  | AConst c => Some c
  | AAdd a b => bin (fun x y => Some (x + y)) a b
  | AMul a b => bin (fun x y => Some (x * y)) a b
  | AFloorDiv a b => bin (fun x y => if y =? 0 then None else Some (x / y)) a b
  | ACeilDiv a b => bin (fun x y => if y =? 0 then None else Some (- (- x / y))) a b
  | AMod a b => bin (fun x y => if y <=? 0 then None else Some (x mod y)) a b
  end.

(** MLIR's rewriting: on construction, and explicit simplification with the
    number of dimensions. *)
Record mlir := mkMlir { canon : aexpr -> aexpr; simp : nat -> aexpr -> aexpr }.

(** DimensionAccess.h: the access along one dimension of the variable. The
    shared pointer to an iteration space is its identity [sid] together with
    its content. *)
Inductive dacc :=
| DConst (c : Z)
| DDim (d : nat)
| DAdd (a b : dacc)
| DSub (a b : dacc)
| DMul (a b : dacc)
| DDiv (a b : dacc)
| DRange (r : range)
| DIndices (sid : nat) (space : bset) (dim : nat) (deps : list nat).

(** DimensionAccess::isAffine: DimensionAccess.cpp:197, Add.cpp:92-94 (and Sub,
    Mul, Div), Constant.cpp:58, Dimension.cpp:59. *)
Fixpoint da_isAffine (a : dacc) : bool :=
  match a with
  | DConst _ | DDim _ => true
  | DAdd x y | DSub x y | DMul x y | DDiv x y => da_isAffine x && da_isAffine y
  | DRange _ | DIndices _ _ _ _ => false
  end.

(** DimensionAccess::isConstant: Add.cpp:88-90 (and Sub, Mul, Div),
    Constant.cpp:56, Dimension.cpp:57, Range.cpp:75, Indices.cpp:74. *)
Fixpoint da_isConstant (a : dacc) : bool :=
  match a with
  | DConst _ => true
  | DDim _ => false
  | DAdd x y | DSub x y | DMul x y | DDiv x y => da_isConstant x && da_isConstant y
  | DRange _ | DIndices _ _ _ _ => true
  end.

(** operator== of the dimension accesses: Add.cpp:40-50, Constant.cpp:15-26,
    Dimension.cpp:16-27, Range.cpp:36-46, Indices.cpp:20-31. The iteration
    spaces are compared by address; the dependencies are not compared. *)
Fixpoint da_eq (a b : dacc) : bool :=
  match a, b with
  | DConst x, DConst y => x =? y
  | DDim x, DDim y => Nat.eqb x y
  | DAdd x y, DAdd x' y' | DSub x y, DSub x' y' | DMul x y, DMul x' y'
  | DDiv x y, DDiv x' y' => da_eq x x' && da_eq y y'
  | DRange r, DRange s => range_eq r s
  | DIndices i _ d _, DIndices j _ e _ => Nat.eqb i j && Nat.eqb d e
  | _, _ => false
  end.

Section Access.
Variable m : mlir.

(** The operators of mlir::AffineExpr. *)
Definition mkAdd a b := canon m (AAdd a b).
Definition mkMul a b := canon m (AMul a b).
Definition mkSub a b := mkAdd a (mkMul b (AConst (-1))).
Definition mkFloorDiv a b := canon m (AFloorDiv a b).

(** DimensionAccess::getAffineExpr(): Add.cpp:96-99, Sub, Mul, Div.cpp:96-99,
    Constant.cpp:60-62, Dimension.cpp:61-63; DimensionAccess.cpp:199-202. *)
Fixpoint da_affine (a : dacc) : res aexpr :=
  match a with
  | DConst c => Ok (AConst c)
  | DDim d => Ok (ADim d)
  | DAdd x y => e <- da_affine x ;; f <- da_affine y ;; Ok (mkAdd e f)
  | DSub x y => e <- da_affine x ;; f <- da_affine y ;; Ok (mkSub e f)
  | DMul x y => e <- da_affine x ;; f <- da_affine y ;; Ok (mkMul e f)
  | DDiv x y => e <- da_affine x ;; f <- da_affine y ;; Ok (mkFloorDiv e f)
  | DRange _ | DIndices _ _ _ _ => Bad
  end.

(** DimensionAccess::getAffineExpr(numOfDimensions, fakeDimensionsMap). The
    fake dimensions are numbered from [n] on: the map is the list of its
    values. Add.cpp:101-111 (and Sub, Mul, Div), Constant.cpp:64-68,
    Dimension.cpp:65-69, Range.cpp:77-86, Indices.cpp:76-85. *)
Fixpoint da_extended (n : nat) (fake : list dacc) (a : dacc) : aexpr * list dacc :=
  match a with
  | DConst c => (AConst c, fake)
  | DDim d => (ADim d, fake)
  | DAdd x y => let '(e, fk) := da_extended n fake x in
                let '(f, fk') := da_extended n fk y in (mkAdd e f, fk')
  | DSub x y => let '(e, fk) := da_extended n fake x in
                let '(f, fk') := da_extended n fk y in (mkSub e f, fk')
  | DMul x y => let '(e, fk) := da_extended n fake x in
                let '(f, fk') := da_extended n fk y in (mkMul e f, fk')
  | DDiv x y => let '(e, fk) := da_extended n fake x in
                let '(f, fk') := da_extended n fk y in (mkFloorDiv e f, fk')
  | DRange _ | DIndices _ _ _ _ => (ADim (n + length fake), fake ++ [a])
  end.
Fixpoint das_extended (n : nat) (fake : list dacc) (l : list dacc) : list aexpr * list dacc :=
  match l with
  | [] => ([], fake)
  | a :: l' => let '(e, fk) := da_extended n fake a in
               let '(es, fk') := das_extended n fk l' in (e :: es, fk')
  end.

(** DimensionAccess.cpp:99-154, getDimensionAccessFromExtendedMap. The fake
    dimensions are [base], [base + 1], ... DimensionAccess::build (60-97) is
    the case of no fake dimension. *)
Fixpoint da_of (base : nat) (fake : list dacc) (e : aexpr) : res dacc :=
  match e with
  | AConst c => Ok (DConst c)
  | ADim d =>
      if Nat.leb base d
      then match nth_error fake (d - base) with Some a => Ok a | None => Ok (DDim d) end
      else Ok (DDim d)
  | AAdd x y => a <- da_of base fake x ;; b <- da_of base fake y ;; Ok (DAdd a b)
  | AMul x y => a <- da_of base fake x ;; b <- da_of base fake y ;; Ok (DMul a b)
  | AFloorDiv x y => a <- da_of base fake x ;; b <- da_of base fake y ;; Ok (DDiv a b)
  | ACeilDiv _ _ | AMod _ _ => Bad
  end.

Fixpoint map_res {A B} (f : A -> res B) (l : list A) : res (list B) :=
  match l with
  | [] => Ok []
  | x :: l' => y <- f x ;; ys <- map_res f l' ;; Ok (y :: ys)
  end.

(** Coordinate-wise operation on two points of the same rank, Add.cpp:125-134.
    The coordinates past the shorter point cannot occur: an assertion checks
    the ranks. *)
Fixpoint zip_res (f : Z -> Z -> res Z) (p q : point) : res point :=
  match p, q with
  | [], [] => Ok []
  | x :: p', y :: q' => v <- f x y ;; r <- zip_res f p' q' ;; Ok (v :: r)
  | _, _ => Bad
  end.
Definition bs_op (f : Z -> Z -> res Z) (s o : bset) : res bset :=
  l <- map_res (fun q => zip_res f (fst q) (snd q)) (list_prod (bs_points s) (bs_points o)) ;;
  Ok (bs_of_points l).

(** int64_t division truncates towards zero, and by zero is undefined. *)
Definition div_trunc (x y : Z) : res Z := if y =? 0 then Bad else Ok (Z.quot x y).

(** llvm::DenseMap<const IndexSet *, Point>. *)
Definition spoints := list (nat * point).
Fixpoint lookup_point (i : nat) (cur : spoints) : option point :=
  match cur with
  | [] => None
  | (j, p) :: cur' => if Nat.eqb i j then Some p else lookup_point i cur'
  end.

(** DimensionAccess::map: Add.cpp:113-139 (and Sub, Mul, Div),
    Constant.cpp:70-74, Dimension.cpp:71-75, Range.cpp:88-92,
    Indices.cpp:87-105. *)
Fixpoint da_map (p : point) (cur : spoints) (a : dacc) : res bset :=
  match a with
  | DConst c => Ok [mdrange_of_point [c]]
  | DDim d => v <- of_option (nth_error p d) ;; Ok [mdrange_of_point [v]]
  | DAdd x y => s <- da_map p cur x ;; o <- da_map p cur y ;; bs_op (fun u v => Ok (u + v)) s o
  | DSub x y => s <- da_map p cur x ;; o <- da_map p cur y ;; bs_op (fun u v => Ok (u - v)) s o
  | DMul x y => s <- da_map p cur x ;; o <- da_map p cur y ;; bs_op (fun u v => Ok (u * v)) s o
  | DDiv x y => s <- da_map p cur x ;; o <- da_map p cur y ;; bs_op div_trunc s o
  | DRange r => Ok [[r]]
  | DIndices i s d [] => map_res (fun b => r <- of_option (nth_error b d) ;; Ok [r]) s
  | DIndices i s d _ =>
      q <- of_option (lookup_point i cur) ;;
      v <- of_option (nth_error q d) ;;
      Ok [mdrange_of_point [v]]
  end.

(** AccessFunction.h:18-27, the classes that AccessFunction::build creates:
    number of dimensions and results. *)
Inductive afun :=
| AFEmpty
| AFAffineConstant (n : nat) (rs : list aexpr)
| AFConstant (n : nat) (rs : list dacc)
| AFRoto (n : nat) (rs : list aexpr)
| AFGeneric (n : nat) (rs : list dacc).

(** getNumOfDims / getNumOfResults: AffineMap.cpp:26-32, Generic.cpp:147-151. *)
Definition af_dims (f : afun) : nat :=
  match f with
  | AFEmpty => 0%nat
  | AFAffineConstant n _ | AFRoto n _ => n
  | AFConstant n _ | AFGeneric n _ => n
  end.
Definition af_results (f : afun) : nat :=
  match f with
  | AFEmpty => 0%nat
  | AFAffineConstant _ rs | AFRoto _ rs => length rs
  | AFConstant _ rs | AFGeneric _ rs => length rs
  end.

Definition is_DConst (a : dacc) : bool := match a with DConst _ => true | _ => false end.
(** AccessFunctionConstant.cpp:10-21. *)
Definition is_constant_access (a : dacc) : bool :=
  match a with DConst _ | DRange _ | DIndices _ _ _ _ => true | _ => false end.
(** AccessFunctionRotoTranslation.cpp:20-40. *)
Definition is_roto_access (a : dacc) : bool :=
  match a with
  | DDim _ | DConst _ => true
  | DAdd (DDim _) (DConst _) | DAdd (DConst _) (DDim _) => true
  | _ => false
  end.
(** AccessFunctionRotoTranslation.cpp:9-41, canBeBuilt. *)
Definition roto_canBeBuilt (n : nat) (rs : list dacc) : bool :=
  negb (Nat.eqb n 0) && match rs with [] => false | _ => true end && forallb is_roto_access rs.

(** AccessFunction.cpp:13-39, build from dimension accesses that have been
    simplified; AccessFunctionAffineMap.cpp:6-17, buildAffineMap. *)
Definition af_build0 (n : nat) (rs : list dacc) : res afun :=
  if Nat.eqb n 0 && match rs with [] => true | _ => false end then Ok AFEmpty
  else if forallb is_DConst rs then es <- map_res da_affine rs ;; Ok (AFAffineConstant n es)
  else if forallb is_constant_access rs then Ok (AFConstant n rs)
  else if roto_canBeBuilt n rs then
    es <- map_res da_affine rs ;;
    (* the assertion of AccessFunctionRotoTranslation.cpp:52 *)
    ds <- map_res (da_of 0 []) es ;;
    _ <- assert_ok (roto_canBeBuilt n ds) ;;
    Ok (AFRoto n es)
  else Ok (AFGeneric n rs).

(** AccessFunction.cpp:75-91, fromExtendedMap; [n] is the number of dimensions
    of the map, the fake ones included. *)
Definition af_fromExtended (n : nat) (es : list aexpr) (base : nat) (fake : list dacc) : res afun :=
  rs <- map_res (da_of base fake) (map (simp m n) es) ;;
  af_build0 (n - length fake) rs.

(** AccessFunction.cpp:65-73, build from an affine map. *)
Definition af_build_map (n : nat) (es : list aexpr) : res afun :=
  rs <- map_res (da_of 0 []) (map (simp m n) es) ;;
  af_build0 n rs.

(** AccessFunction.cpp:42-63, build from dimension accesses. *)
Definition af_build (n : nat) (rs : list dacc) : res afun :=
  let '(es, fake) := das_extended n [] rs in
  let n' := (n + length fake)%nat in
  af_fromExtended n' (map (simp m n') es) n fake.

(** isAffine: AffineMap.cpp:38, Generic.cpp:158-163. *)
Definition af_isAffine (f : afun) : bool :=
  match f with
  | AFEmpty | AFAffineConstant _ _ | AFRoto _ _ => true
  | AFConstant _ rs | AFGeneric _ rs => forallb da_isAffine rs
  end.

(** getAffineMap: AffineMap.cpp:40-42, Generic.cpp:165-174. *)
Definition af_map_of (f : afun) : res (list aexpr) :=
  match f with
  | AFEmpty => Ok []
  | AFAffineConstant _ rs | AFRoto _ rs => Ok rs
  | AFConstant _ rs | AFGeneric _ rs => map_res da_affine rs
  end.

(** getGeneralizedAccesses: AffineMap.cpp:73-76, Generic.cpp:279-288. *)
Definition af_accesses (f : afun) : res (list dacc) :=
  match f with
  | AFEmpty => Ok []
  | AFAffineConstant _ rs | AFRoto _ rs => map_res (da_of 0 []) rs
  | AFConstant _ rs | AFGeneric _ rs => Ok rs
  end.

(** getExtendedAffineMap: AffineMap.cpp:78-81, Generic.cpp:290-300. *)
Definition af_extended (f : afun) : list aexpr * list dacc :=
  match f with
  | AFEmpty => ([], [])
  | AFAffineConstant _ rs | AFRoto _ rs => (rs, [])
  | AFConstant n rs | AFGeneric n rs => das_extended n [] rs
  end.

(** getWithGivenDimensions: AffineMap.cpp:68-71 and 83-90;
    AccessFunction.cpp:217-222. *)
Definition af_withDims (f : afun) (k : nat) : res afun :=
  match f with
  | AFEmpty => af_build_map k []
  | AFAffineConstant n rs | AFRoto n rs => af_build_map (Nat.max n k) rs
  | AFConstant n rs | AFGeneric n rs => af_build (Nat.max k n) rs
  end.

(** The value of the results of an affine map at a point with (at least) as
    many coordinates as dimensions, AffineMap.cpp:48-56. *)
Definition point_eval (n : nat) (es : list aexpr) (p : point) : res point :=
  _ <- assert_ok (Nat.leb n (length p)) ;;
  map_res (fun e => of_option (aeval p e)) es.

(** The appending loop, AccessFunctionGeneric.cpp:224-233 and 256-264. *)
Definition append_results (p : point) (cur : spoints) (rs : list dacc) (acc : bset) : res bset :=
  fold_res (fun acc a =>
              s <- da_map p cur a ;;
              Ok (if bs_empty acc then s else bs_append acc s)) rs acc.

(** collectIterationSpaces, Indices.cpp:60-72: the iteration spaces with
    dependent dimensions, in order of appearance. *)
Fixpoint da_spaces (a : dacc) : list (nat * bset) :=
  match a with
  | DAdd x y | DSub x y | DMul x y | DDiv x y => da_spaces x ++ da_spaces y
  | DIndices i s _ (_ :: _) => [(i, s)]
  | _ => []
  end.
Fixpoint unique_spaces (l : list (nat * bset)) (seen : list nat) : list (nat * bset) :=
  match l with
  | [] => []
  | (i, s) :: l' =>
      if existsb (Nat.eqb i) seen then unique_spaces l' seen
      else (i, s) :: unique_spaces l' (i :: seen)
  end.
(** AccessFunctionGeneric.cpp:238-267, the recursive map. *)
Fixpoint gen_map_rec (p : point) (rs : list dacc) (spaces : list (nat * bset))
    (acc : bset) (cur : spoints) : res (bset * spoints) :=
  '(acc1, cur1) <-
    (match spaces with
     | [] => Ok (acc, cur)
     | (i, s) :: rest =>
         fold_res (fun st q => gen_map_rec p rs rest (fst st) ((i, q) :: snd st))
           (bs_points s) (acc, cur)
     end) ;;
  s <- append_results p cur1 rs [] ;;
  Ok (bs_union acc1 s, cur1).
(** AccessFunctionGeneric.cpp:194-236, map(Point). *)
Definition gen_map_point (rs : list dacc) (p : point) : res bset :=
  let spaces := unique_spaces (flat_map da_spaces rs) [] in
  '(acc, cur) <- (match spaces with
                  | [] => Ok ([], [])
                  | _ => gen_map_rec p rs spaces [] []
                  end) ;;
  append_results p cur rs acc.

(** map(Point): AccessFunctionEmpty.cpp:60, AffineMap.cpp:48-56,
    Generic.cpp:194-236. *)
Definition af_map_point (f : afun) (p : point) : res bset :=
  match f with
  | AFEmpty => Ok []
  | AFAffineConstant n rs | AFRoto n rs =>
      q <- point_eval n rs p ;; Ok [mdrange_of_point q]
  | AFConstant n rs | AFGeneric n rs => gen_map_point rs p
  end.

(** AccessFunctionRotoTranslation.cpp:155-183, map of a box. *)
Definition roto_map_box (n : nat) (rs : list aexpr) (b : mdrange) : res mdrange :=
  lo <- point_eval n rs (map rbegin b) ;;
  hi <- point_eval n rs (map rend b) ;;
  Ok (map (fun q => let '(l, h) := q in
                    if l =? h then mkRange l (h + 1) else mkRange l h) (combine lo hi)).

(** map(IndexSet): Empty.cpp:62, AffineConstant.cpp:71-81, Constant.cpp:49-57,
    RotoTranslation.cpp:185-194, Generic.cpp:269-277. *)
Definition af_map_set (f : afun) (s : bset) : res bset :=
  match f with
  | AFEmpty => Ok []
  | AFAffineConstant n rs =>
      if bs_empty s && negb (Nat.eqb n 0) then Ok []
      else match rs with
           | [] => Ok []
           | _ => q <- map_res (fun e => match e with AConst c => Ok c | _ => Bad end) rs ;;
                  Ok [mdrange_of_point q]
           end
  | AFConstant n rs =>
      if bs_empty s && negb (Nat.eqb n 0) then Ok []
      else gen_map_point rs (repeat 0 n)
  | AFRoto n rs => map_res (roto_map_box n rs) s
  | AFGeneric n rs =>
      fold_res (fun acc p => q <- gen_map_point rs p ;; Ok (bs_union acc q)) (bs_points s) []
  end.

(** AccessFunctionRotoTranslation.cpp:309-333, getInductionVariableIndex. *)
Definition binary_of (e : aexpr) : option (aexpr * aexpr) :=
  match e with
  | AAdd a b | AMul a b | AFloorDiv a b | ACeilDiv a b | AMod a b => Some (a, b)
  | _ => None
  end.
Definition inductionVar (e : aexpr) : option nat :=
  match e with
  | ADim d => Some d
  | _ => match binary_of e with
         | Some (ADim d, _) => Some d
         | Some (_, ADim d) => Some d
         | _ => None
         end
  end.
(** AccessFunctionRotoTranslation.cpp:335-360, getOffset. *)
Definition offset_of (e : aexpr) : res Z :=
  match e with
  | ADim _ => Ok 0
  | _ => match binary_of e with
         | Some (AConst c, _) => Ok c
         | Some (_, AConst c) => Ok c
         | _ => Bad
         end
  end.

(** AccessFunctionRotoTranslation.cpp:91-118, isInvertible. The bits of
    usedDimensions are set one by one; a dimension equal to the number of
    dimensions passes the test of line 103 and writes out of bounds. *)
Definition set_bit (l : list bool) (d : nat) : list bool := set_nth l d true.
Fixpoint invertible_loop (n : nat) (rs : list aexpr) (used : list bool) : res (option (list bool)) :=
  match rs with
  | [] => Ok (Some used)
  | e :: rs' =>
      match inductionVar e with
      | None => Ok None
      | Some d =>
          if Nat.ltb n d then Ok None
          else _ <- assert_ok (Nat.ltb d n) ;; invertible_loop n rs' (set_bit used d)
      end
  end.
Definition roto_isInvertible (n : nat) (rs : list aexpr) : res bool :=
  if negb (Nat.eqb n (length rs)) then Ok false
  else
    o <- invertible_loop n rs (repeat false n) ;;
    Ok (match o with None => false | Some used => forallb (fun b => b) used end).
(** isInvertible: AccessFunction.cpp:198, Empty.cpp:54,
    RotoTranslation.cpp:91-118. *)
Definition af_isInvertible (f : afun) : res bool :=
  match f with
  | AFEmpty => Ok true
  | AFRoto n rs => roto_isInvertible n rs
  | _ => Ok false
  end.

(** AccessFunctionRotoTranslation.cpp:120-153, inverse: [None] is nullptr.
    [i] is the loop counter. *)
Fixpoint inverse_loop (i : nat) (rs : list aexpr) (remapped : list aexpr) (positions : list nat)
    : res (option (list aexpr * list nat)) :=
  match rs with
  | [] => Ok (Some (remapped, positions))
  | e :: rs' =>
      match inductionVar e with
      | None => Ok None
      | Some d =>
          c <- offset_of e ;;
          _ <- assert_ok (Nat.ltb d (length positions)) ;;
          inverse_loop (S i) rs' (remapped ++ [mkSub (ADim i) (AConst c)])
            (set_nth positions d i)
      end
  end.
Definition roto_inverse (n : nat) (rs : list aexpr) : res (option afun) :=
  inv <- roto_isInvertible n rs ;;
  if negb inv then Ok None
  else
    o <- inverse_loop 0 rs [] (repeat 0%nat (length rs)) ;;
    match o with
    | None => Ok None
    | Some (remapped, positions) =>
        reordered <- map_res (fun i => of_option (nth_error remapped i)) positions ;;
        g <- af_build_map n reordered ;;
        Ok (Some g)
    end.
Definition af_inverse (f : afun) : res (option afun) :=
  match f with
  | AFEmpty => Ok (Some AFEmpty)
  | AFRoto n rs => roto_inverse n rs
  | _ => Ok None
  end.

(** operator==: Empty.cpp:32-42, AffineConstant.cpp:45-57,
    RotoTranslation.cpp:67-79, Generic.cpp:68-90 (Constant inherits it;
    llvm::zip stops at the shorter list). *)
Fixpoint aexpr_eq (a b : aexpr) : bool :=
  match a, b with
  | ADim x, ADim y => Nat.eqb x y
  | AConst x, AConst y => x =? y
  | AAdd x y, AAdd x' y' | AMul x y, AMul x' y' | AFloorDiv x y, AFloorDiv x' y'
  | ACeilDiv x y, ACeilDiv x' y' | AMod x y, AMod x' y' => aexpr_eq x x' && aexpr_eq y y'
  | _, _ => false
  end.
Fixpoint aexprs_eq (a b : list aexpr) : bool :=
  match a, b with
  | [], [] => true
  | x :: a', y :: b' => aexpr_eq x y && aexprs_eq a' b'
  | _, _ => false
  end.
Fixpoint dacc_zip_eq (a b : list dacc) : bool :=
  match a, b with
  | x :: a', y :: b' => da_eq x y && dacc_zip_eq a' b'
  | _, _ => true
  end.
Definition af_eq (f g : afun) : bool :=
  match f, g with
  | AFEmpty, AFEmpty => true
  | AFAffineConstant n a, AFAffineConstant k b => Nat.eqb n k && aexprs_eq a b
  | AFRoto n a, AFRoto k b => Nat.eqb n k && aexprs_eq a b
  | AFConstant n a, AFConstant k b | AFConstant n a, AFGeneric k b
  | AFGeneric n a, AFConstant k b | AFGeneric n a, AFGeneric k b =>
      Nat.eqb n k && dacc_zip_eq a b
  | _, _ => false
  end.

(** mlir::AffineMap::compose(AffineMap): the dimensions of [e] are replaced by
    the results [l]. *)
Fixpoint asubst (l : list aexpr) (e : aexpr) : res aexpr :=
  match e with
  | ADim d => of_option (nth_error l d)
  | AConst c => Ok (AConst c)
  | AAdd a b => x <- asubst l a ;; y <- asubst l b ;; Ok (canon m (AAdd x y))
  | AMul a b => x <- asubst l a ;; y <- asubst l b ;; Ok (canon m (AMul x y))
  | AFloorDiv a b => x <- asubst l a ;; y <- asubst l b ;; Ok (canon m (AFloorDiv x y))
  | ACeilDiv a b => x <- asubst l a ;; y <- asubst l b ;; Ok (canon m (ACeilDiv x y))
  | AMod a b => x <- asubst l a ;; y <- asubst l b ;; Ok (canon m (AMod x y))
  end.
(** The assertion of compose: as many dimensions as results. *)
Definition acompose (n : nat) (es : list aexpr) (l : list aexpr) : res (list aexpr) :=
  _ <- assert_ok (Nat.eqb n (length l)) ;;
  map_res (asubst l) es.

(** AccessFunction.cpp:130-196, combine. *)
Definition af_combine (f other : afun) : res afun :=
  g <- af_withDims other (af_results f) ;;
  if af_isAffine f && af_isAffine g then
    fm <- af_map_of f ;;
    gm <- af_map_of g ;;
    es <- acompose (af_dims g) gm fm ;;
    af_build_map (af_dims f) es
  else
    let '(rhsMap, rhsFake) := af_extended g in
    let k := length rhsFake in
    lhsExt <- af_withDims f (af_dims f + k) ;;
    accesses <- af_accesses f ;;
    lhs <- af_build (af_dims lhsExt)
             (accesses ++ map (fun i => DDim (af_dims f + i)) (seq 0 k)) ;;
    let '(lhsMap, lhsFake) := af_extended lhs in
    es <- acompose (af_dims g + k) rhsMap lhsMap ;;
    af_fromExtended (af_dims lhs + length lhsFake) es (af_dims f) rhsFake.

(** AccessFunction.cpp:204-215, inverseMap of the base class. *)
Fixpoint filter_res {A} (f : A -> res bool) (l : list A) : res (list A) :=
  match l with
  | [] => Ok []
  | x :: l' => b <- f x ;; r <- filter_res f l' ;; Ok (if b : bool then x :: r else r)
  end.
Definition base_inverseMap (f : afun) (accessed parent : bset) : res bset :=
  l <- filter_res (fun p => s <- af_map_point f p ;; Ok (bs_contains accessed s)) (bs_points parent) ;;
  Ok (bs_of_points l).

(** AffineConstant.cpp:83-97 and Constant.cpp:59-73. *)
Definition const_inverseMap (f : afun) (accessed parent : bset) : res bset :=
  expected <- af_map_set f parent ;;
  Ok (if bs_empty accessed && negb (bs_empty expected) then []
      else if bs_contains expected accessed then parent else []).

(** mlir::compressUnusedDims: the used dimensions are renumbered in order. *)
Fixpoint adims (e : aexpr) : list nat :=
  match e with
  | ADim d => [d]
  | AConst _ => []
  | AAdd a b | AMul a b | AFloorDiv a b | ACeilDiv a b | AMod a b => adims a ++ adims b
  end.
Definition used_in (rs : list aexpr) (d : nat) : bool :=
  existsb (Nat.eqb d) (flat_map adims rs).
Definition newDim (rs : list aexpr) (d : nat) : nat :=
  length (filter (used_in rs) (seq 0 d)).
Fixpoint arename (f : nat -> nat) (e : aexpr) : aexpr :=
  match e with
  | ADim d => ADim (f d)
  | AConst c => AConst c
  | AAdd a b => AAdd (arename f a) (arename f b)
  | AMul a b => AMul (arename f a) (arename f b)
  | AFloorDiv a b => AFloorDiv (arename f a) (arename f b)
  | ACeilDiv a b => ACeilDiv (arename f a) (arename f b)
  | AMod a b => AMod (arename f a) (arename f b)
  end.

(** RotoTranslation.cpp:213-221: usedDimensions and usedResults. *)
Definition usedDims (n : nat) (rs : list aexpr) : list bool :=
  fold_left (fun u e => match inductionVar e with Some d => set_bit u d | None => u end)
    rs (repeat false n).
Definition usedResults (rs : list aexpr) : list bool :=
  map (fun e => match inductionVar e with Some _ => true | None => false end) rs.
(** RotoTranslation.cpp:250-271: the ranges of the used dimensions from
    [reduced], those of the other dimensions from [parent]. *)
Fixpoint merge_dims (used : list bool) (reduced parent : mdrange) : res mdrange :=
  match used, parent with
  | [], _ => Ok []
  | true :: used', _ :: parent' =>
      match reduced with
      | r :: reduced' => l <- merge_dims used' reduced' parent' ;; Ok (r :: l)
      | [] => Bad
      end
  | false :: used', r :: parent' => l <- merge_dims used' reduced parent' ;; Ok (r :: l)
  | _ :: _, [] => Bad
  end.

(** The empty access function, Empty.cpp:64-69. *)
Definition empty_inverseMap (accessed parent : bset) : res bset :=
  _ <- assert_ok (bs_empty accessed) ;;
  _ <- assert_ok (bs_empty parent) ;;
  Ok [].

(** RotoTranslation.cpp:196-276, inverseMap. [fuel] bounds the nesting of the
    calls on reduced access functions: the second one has neither unused
    dimensions nor constant results, so two levels are enough. *)
Fixpoint af_inverseMap (fuel : nat) (f : afun) (accessed parent : bset) : res bset :=
  match f with
  | AFEmpty => empty_inverseMap accessed parent
  | AFAffineConstant _ _ | AFConstant _ _ => const_inverseMap f accessed parent
  | AFGeneric _ _ => base_inverseMap f accessed parent
  | AFRoto n rs =>
      if bs_empty accessed && negb (bs_empty parent) && negb (Nat.eqb (length rs) 0) then Ok []
      else
        inv <- roto_inverse n rs ;;
        let reduce :=
          let ud := usedDims n rs in
          let ur := usedResults rs in
          if negb (forallb (fun b => b) ud) || negb (forallb (fun b => b) ur) then
            match fuel with
            | O => NoFuel
            | S fl =>
                let es := filter (fun e => match e with AConst _ => false | _ => true end)
                            (map (arename (newDim rs)) rs) in
                g <- af_build_map (newDim rs n) es ;;
                r <- af_inverseMap fl g (bs_slice accessed ur) (bs_slice parent ud) ;;
                if forallb (fun b => b) ud then Ok r
                else
                  map_res (fun q => merge_dims ud (snd q) (fst q)) (list_prod parent r)
            end
          else base_inverseMap f accessed parent in
        match inv with
        | Some g =>
            if negb (bs_empty accessed) && negb (bs_empty parent)
               && Nat.eqb (bs_rank accessed) (bs_rank parent)
            then
              s <- af_map_set g accessed ;;
              (* the assertion of line 208 *)
              t <- af_map_set f s ;;
              _ <- assert_ok (bs_contains t accessed) ;;
              Ok s
            else reduce
        | None => reduce
        end
  end.
End Access.
