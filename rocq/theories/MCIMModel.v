(** Model of the incidence matrices: include/marco/Modeling/MCIM.h,
    lib/Modeling/MCIM.cpp and lib/Modeling/MCIMGroup*.cpp.

    A matrix relates the points of the equation space to the points of the
    variable space. It holds groups (an access function and the equations, or
    keys, it is applied to) and single points (equation and variable indices
    one after the other). The shared ownership of the spaces is not modelled:
    nothing modifies them. Index sets are box lists (BoxSetModel.v). The
    printing of a matrix (627-771) is not modelled. *)
From Coq Require Import ZArith List Bool.
From Verif Require Import RangeModel MDRangeModel Result BoxSetModel AccessModel.
Import ListNotations.
Open Scope Z_scope.

(** IndexSet.cpp:789-821, takeFirstDimensions and takeLastDimensions. *)
Definition bs_takeFirst (s : bset) (n : nat) : bset := map (fun b => mdrange_takeFirst b n) s.
Definition bs_takeLast (s : bset) (n : nat) : bset := map (fun b => mdrange_takeLast b n) s.
(** IndexSet.cpp:875-891, prepend. *)
Definition bs_prepend (s o : bset) : bset :=
  flat_map (fun b => map (fun c => mdrange_prepend b c) o) s.
(** The index set of one point, IndexSet.cpp:77-85. *)
Definition bs_point (p : point) : bset := [mdrange_of_point p].
Definition point_eqb (p q : point) : bool := if list_eq_dec Z.eq_dec p q then true else false.

(** MCIMGroup.h:10-62: the class of the group, its access function, its keys. *)
Inductive gkind := KAffineConstant | KEmpty | KGeneric.
Record group := mkGroup { gclass : gkind; gfun : afun; gkeys : bset }.
Definition g_withKeys (g : group) (k : bset) : group := mkGroup (gclass g) (gfun g) k.

(** MCIMGroup.cpp:9-20, build: a group without keys. *)
Definition g_build (f : afun) : group :=
  match f with
  | AFAffineConstant _ _ => mkGroup KAffineConstant f []
  | AFEmpty => mkGroup KEmpty f []
  | _ => mkGroup KGeneric f []
  end.
(** MCIMGroupGeneric.cpp:6-9. *)
Definition g_buildGeneric (f : afun) : group := mkGroup KGeneric f [].

(** MCIMGroupGeneric.cpp:33-37, addKeys and removeKeys. *)
Definition g_addKeys (g : group) (k : bset) : group := g_withKeys g (bs_union (gkeys g) k).
Definition g_removeKeys (g : group) (k : bset) : group := g_withKeys g (bs_diff (gkeys g) k).

(** MCIMGroupAffineConstant.cpp:11-17 (the member mapped) and
    AccessFunctionAffineConstant.cpp:99-116 (getMappedPoint). *)
Definition g_mapped (f : afun) : res bset :=
  match f with
  | AFAffineConstant _ [] => Ok []
  | AFAffineConstant _ rs =>
      q <- map_res (fun e => match e with AConst c => Ok c | _ => Bad end) rs ;; Ok (bs_point q)
  | _ => Bad
  end.

Section MCIM.
Variable m : mlir.
(** AccessFunction::inverseMap. *)
Definition inverse_map (f : afun) (accessed parent : bset) : res bset :=
  af_inverseMap m 2 f accessed parent.

(** getValues: MCIMGroupGeneric.cpp:39-41, MCIMGroupEmpty.cpp:23-29. *)
Definition g_values (g : group) : res bset :=
  match gclass g with
  | KEmpty => Ok (if bs_empty (gkeys g) then [] else bs_point [0])
  | _ => af_map_set (gfun g) (gkeys g)
  end.

(** has: MCIMGroupGeneric.cpp:52-54, AffineConstant.cpp:39-41, Empty.cpp:41-43. *)
Definition g_has (g : group) (key value : point) : res bool :=
  match gclass g with
  | KAffineConstant =>
      mapped <- g_mapped (gfun g) ;; Ok (bs_mem (gkeys g) key && bs_mem mapped value)
  | KEmpty => Ok (bs_mem (gkeys g) key && point_eqb value [0])
  | KGeneric =>
      if bs_mem (gkeys g) key
      then s <- af_map_point (gfun g) key ;; Ok (bs_mem s value)
      else Ok false
  end.

(** set: MCIMGroupGeneric.cpp:56-61, AffineConstant.cpp:43-50, Empty.cpp:45-52.
    The group and whether the pair is allowed in it. *)
Definition g_set (g : group) (key value : point) : res (group * bool) :=
  match gclass g with
  | KAffineConstant =>
      mapped <- g_mapped (gfun g) ;;
      Ok (if bs_mem mapped value then (g_addKeys g (bs_point key), true) else (g, false))
  | KEmpty =>
      Ok (if point_eqb value [0] then (g_addKeys g (bs_point key), true) else (g, false))
  | KGeneric =>
      inv <- inverse_map (gfun g) (bs_point value) (bs_point key) ;;
      Ok (g_addKeys g inv, negb (bs_empty inv))
  end.

(** unset: MCIMGroupGeneric.cpp:63-68, AffineConstant.cpp:52-59, Empty.cpp:54-61. *)
Definition g_unset (g : group) (key value : point) : res (group * bool) :=
  match gclass g with
  | KAffineConstant =>
      mapped <- g_mapped (gfun g) ;;
      Ok (if bs_mem mapped value then (g_removeKeys g (bs_point key), true) else (g, false))
  | KEmpty =>
      Ok (if point_eqb value [0] then (g_removeKeys g (bs_point key), true) else (g, false))
  | KGeneric =>
      inv <- inverse_map (gfun g) (bs_point value) (bs_point key) ;;
      Ok (g_removeKeys g inv, negb (bs_empty inv))
  end.

(** MCIMGroupGeneric.cpp:70-75, filterKeys. *)
Definition g_filterKeys (g : group) (filter : bset) : group :=
  g_addKeys (g_buildGeneric (gfun g)) (bs_intersect (gkeys g) filter).
(** filterValues: MCIMGroupGeneric.cpp:77-83, AffineConstant.cpp:61-70,
    Empty.cpp:63-72. *)
Definition g_filterValues (g : group) (filter : bset) : res group :=
  match gclass g with
  | KAffineConstant =>
      mapped <- g_mapped (gfun g) ;;
      Ok (if bs_contains filter mapped then g_addKeys (g_buildGeneric (gfun g)) (gkeys g)
          else g_buildGeneric (gfun g))
  | KEmpty =>
      Ok (if bs_mem filter [0] then g_addKeys (g_buildGeneric (gfun g)) (gkeys g)
          else g_buildGeneric (gfun g))
  | KGeneric =>
      v <- g_values g ;;
      k <- inverse_map (gfun g) (bs_intersect v filter) (gkeys g) ;;
      Ok (g_addKeys (g_buildGeneric (gfun g)) k)
  end.

(** MCIM.h:135-139, the members. *)
Record mcim := mkMcim { meqs : bset; mvars : bset; mgroups : list group; mpoints : bset }.
(** MCIM.cpp:79-91, the constructors. *)
Definition mc_new (eqs vars : bset) : mcim := mkMcim eqs vars [] [].
Definition mc_withGroups (M : mcim) (gs : list group) : mcim := mkMcim (meqs M) (mvars M) gs (mpoints M).
Definition mc_withPoints (M : mcim) (ps : bset) : mcim := mkMcim (meqs M) (mvars M) (mgroups M) ps.

(** MCIM.cpp:613-617, addGroup. *)
Definition mc_addGroup (M : mcim) (g : group) : res mcim :=
  _ <- assert_ok (bs_contains (meqs M) (gkeys g)) ;;
  v <- g_values g ;;
  _ <- assert_ok (bs_contains (mvars M) v) ;;
  Ok (mc_withGroups M (mgroups M ++ [g])).

(** MCIM.cpp:387-407, apply. [add_to_first] adds the keys to the first group
    with the access function, if there is one. *)
Fixpoint add_to_first (gs : list group) (f : afun) (k : bset) : option (list group) :=
  match gs with
  | [] => None
  | g :: gs' =>
      if af_eq (gfun g) f then Some (g_addKeys g k :: gs')
      else match add_to_first gs' f k with Some l => Some (g :: l) | None => None end
  end.
Definition mc_apply (M : mcim) (equations : bset) (access : afun) : res mcim :=
  _ <- assert_ok (bs_contains (meqs M) equations) ;;
  t <- af_map_set access equations ;;
  filtered <- inverse_map access (bs_intersect t (mvars M)) equations ;;
  if bs_empty filtered then Ok M
  else match add_to_first (mgroups M) access filtered with
       | Some gs => Ok (mc_withGroups M gs)
       | None =>
           M' <- mc_addGroup M (g_build access) ;;
           Ok (mc_withGroups M' (removelast (mgroups M') ++ [g_addKeys (g_build access) filtered]))
       end.

(** MCIM.cpp:409-423, get. *)
Fixpoint any_has (gs : list group) (e v : point) : res bool :=
  match gs with
  | [] => Ok false
  | g :: gs' => b <- g_has g e v ;; if b : bool then Ok true else any_has gs' e v
  end.
Definition mc_get (M : mcim) (e v : point) : res bool :=
  _ <- assert_ok (bs_mem (meqs M) e) ;;
  _ <- assert_ok (bs_mem (mvars M) v) ;;
  if bs_mem (mpoints M) (e ++ v) then Ok true else any_has (mgroups M) e v.

(** MCIM.cpp:425-441, set. *)
Definition mc_set (M : mcim) (e v : point) : res mcim :=
  _ <- assert_ok (bs_mem (meqs M) e) ;;
  _ <- assert_ok (bs_mem (mvars M) v) ;;
  l <- map_res (fun g => g_set g e v) (mgroups M) ;;
  let M' := mc_withGroups M (map fst l) in
  Ok (if existsb snd l then M' else mc_withPoints M' (bs_union (mpoints M) (bs_point (e ++ v)))).

(** MCIM.cpp:443-462, unset. *)
Definition mc_unset (M : mcim) (e v : point) : res mcim :=
  _ <- assert_ok (bs_mem (meqs M) e) ;;
  _ <- assert_ok (bs_mem (mvars M) v) ;;
  l <- map_res (fun g => g_unset g e v) (mgroups M) ;;
  let gs := map fst (filter (fun q => snd q && negb (bs_empty (gkeys (fst q)))) l) in
  Ok (mkMcim (meqs M) (mvars M) gs (bs_diff (mpoints M) (bs_point (e ++ v)))).

(** MCIM.cpp:464, empty. *)
Definition mc_empty (M : mcim) : bool :=
  match mgroups M with [] => bs_empty (mpoints M) | _ => false end.

(** MCIM.cpp:55-72 and 244-252: the pairs of indices in order. *)
Definition mc_indices (M : mcim) : list (point * point) :=
  list_prod (bs_points (meqs M)) (bs_points (mvars M)).

(** MCIM.cpp:204-222, operator==. *)
Fixpoint mc_same (A B : mcim) (l : list (point * point)) : res bool :=
  match l with
  | [] => Ok true
  | (e, v) :: l' =>
      a <- mc_get A e v ;; b <- mc_get B e v ;;
      if Bool.eqb a b then mc_same A B l' else Ok false
  end.
Definition mc_eq (A B : mcim) : res bool :=
  if negb (bs_eq (meqs A) (meqs B)) then Ok false
  else if negb (bs_eq (mvars A) (mvars B)) then Ok false
  else mc_same A B (mc_indices A).

(** MCIM.cpp:224-242, operator!=. *)
Fixpoint mc_differ (A B : mcim) (l : list (point * point)) : res bool :=
  match l with
  | [] => Ok false
  | (e, v) :: l' =>
      a <- mc_get A e v ;; b <- mc_get B e v ;;
      if negb (Bool.eqb a b) then Ok true else mc_differ A B l'
  end.
Definition mc_ne (A B : mcim) : res bool :=
  if negb (bs_eq (meqs A) (meqs B)) then Ok true
  else if negb (bs_eq (mvars A) (mvars B)) then Ok true
  else mc_differ A B (mc_indices A).

(** The final assertions of MCIM.cpp:271-279 and 357-365: every entry of [rhs]
    has the value [b] in [M]. *)
Fixpoint mc_checked (M rhs : mcim) (b : bool) (l : list (point * point)) : res unit :=
  match l with
  | [] => Ok tt
  | (e, v) :: l' =>
      r <- mc_get rhs e v ;;
      if r : bool
      then x <- mc_get M e v ;; _ <- assert_ok (Bool.eqb x b) ;; mc_checked M rhs b l'
      else mc_checked M rhs b l'
  end.

(** MCIM.cpp:254-282, operator+=. *)
Definition mc_plus (M rhs : mcim) : res mcim :=
  _ <- assert_ok (bs_eq (meqs M) (meqs rhs)) ;;
  _ <- assert_ok (bs_eq (mvars M) (mvars rhs)) ;;
  M1 <- fold_res (fun A g => mc_apply A (gkeys g) (gfun g)) (mgroups rhs) M ;;
  M2 <- fold_res (fun A p => mc_set A (firstn (bs_rank (meqs M)) p)
                               (skipn (length p - bs_rank (mvars M)) p))
          (bs_points (mpoints rhs)) M1 ;;
  _ <- mc_checked M2 rhs true (mc_indices rhs) ;;
  Ok M2.

(** MCIM.cpp:290-369, operator-=. *)
Definition g_minus (g rhs : group) : res group :=
  if af_eq (gfun g) (gfun rhs) then Ok (g_removeKeys g (gkeys rhs))
  else
    rv <- g_values rhs ;;
    gv <- g_values g ;;
    let common := bs_intersect rv gv in
    if bs_empty common then Ok g
    else
      lk <- inverse_map (gfun g) common (gkeys g) ;;
      if bs_empty lk then Ok g
      else
        rk <- inverse_map (gfun rhs) common (gkeys rhs) ;;
        if bs_empty rk then Ok g
        else Ok (g_removeKeys g (bs_intersect lk rk)).
Definition g_minusPoints (eqRank varRank : nat) (g : group) (points : bset) : res group :=
  if bs_empty (gkeys g) then Ok g
  else fold_res (fun g b =>
         inv <- inverse_map (gfun g) [mdrange_takeLast b varRank] (gkeys g) ;;
         Ok (g_removeKeys g (bs_intersect inv [mdrange_takeFirst b eqRank]))) points g.
Definition mc_minus (M rhs : mcim) : res mcim :=
  _ <- assert_ok (bs_eq (meqs M) (meqs rhs)) ;;
  _ <- assert_ok (bs_eq (mvars M) (mvars rhs)) ;;
  old <- fold_res (fun gs rg => map_res (fun g => g_minus g rg) gs) (mgroups rhs) (mgroups M) ;;
  M1 <- fold_res (fun A g =>
          g' <- g_minusPoints (bs_rank (meqs rhs)) (bs_rank (mvars rhs)) g (mpoints rhs) ;;
          if bs_empty (gkeys g') then Ok A else mc_addGroup A g') old (mc_withGroups M []) ;;
  let M2 := mc_withPoints M1 (bs_diff (mpoints M) (mpoints rhs)) in
  _ <- mc_checked M2 rhs false (mc_indices rhs) ;;
  Ok M2.

(** MCIM.cpp:471-491, flattenRows and flattenColumns. *)
Definition mc_flattenRows (M : mcim) : res bset :=
  vs <- fold_res (fun acc g => v <- g_values g ;; Ok (bs_union acc v)) (mgroups M) [] ;;
  Ok (bs_union vs (bs_takeLast (mpoints M) (bs_rank (mvars M)))).
Definition mc_flattenColumns (M : mcim) : bset :=
  bs_union (flat_map gkeys (mgroups M)) (bs_takeFirst (mpoints M) (bs_rank (meqs M))).

(** MCIM.cpp:493-514, filterRows. *)
Definition mc_filterRows (M : mcim) (filter : bset) : res mcim :=
  R <- fold_res (fun A g =>
         let g' := g_filterKeys g filter in
         if bs_empty (gkeys g') then Ok A else mc_addGroup A g')
       (mgroups M) (mc_new (meqs M) (mvars M)) ;;
  let rows := bs_takeFirst (mpoints M) (bs_rank (meqs M)) in
  let filtered := bs_intersect rows filter in
  Ok (if bs_empty filtered then R
      else mc_withPoints R (bs_intersect (mpoints M) (bs_append filtered (mvars M)))).
(** MCIM.cpp:516-537, filterColumns. *)
Definition mc_filterColumns (M : mcim) (filter : bset) : res mcim :=
  R <- fold_res (fun A g =>
         g' <- g_filterValues g filter ;;
         if bs_empty (gkeys g') then Ok A else mc_addGroup A g')
       (mgroups M) (mc_new (meqs M) (mvars M)) ;;
  let columns := bs_takeLast (mpoints M) (bs_rank (mvars M)) in
  let filtered := bs_intersect columns filter in
  Ok (if bs_empty filtered then R
      else mc_withPoints R (bs_intersect (mpoints M) (bs_prepend filtered (meqs M)))).

(** MCIM.cpp:539-578, withSpace. *)
Definition mc_withSpace (M : mcim) (eqs vars : bset) : res mcim :=
  if mc_empty M || negb (bs_overlaps (meqs M) eqs) || negb (bs_overlaps (mvars M) vars)
  then Ok (mc_new eqs vars)
  else if bs_eq eqs (meqs M) && bs_eq vars (mvars M) then Ok M
  else
    R <- fold_res (fun A g =>
           keys <- (if negb (bs_contains (mvars M) vars)
                    then g' <- g_filterValues g vars ;; Ok (bs_intersect (gkeys g') eqs)
                    else Ok (bs_intersect (gkeys g) eqs)) ;;
           if bs_empty keys then Ok A else mc_addGroup A (g_addKeys (g_build (gfun g)) keys))
         (mgroups M) (mc_new eqs vars) ;;
    Ok (if bs_empty (mpoints R) then R
        else mc_withPoints R (bs_intersect (mpoints M) (bs_append eqs vars))).

(** MCIM.cpp:123-159, setEquationSpace, and 163-202, setVariableSpace. *)
Definition points_in (n : nat) (space points : bset) : bset :=
  flat_map (fun b => map (fun c => mdrange_append c (mdrange_takeLast b (bs_rank points - n)))
                         (bs_intersect space [mdrange_takeFirst b n])) points.
Definition mc_setEquationSpace (M : mcim) (eqs : bset) : res mcim :=
  _ <- assert_ok (Nat.eqb (bs_rank eqs) (bs_rank (meqs M))) ;;
  let gs := flat_map (fun g => let k := bs_intersect (gkeys g) eqs in
                               if bs_empty k then [] else [g_withKeys g k]) (mgroups M) in
  Ok (mkMcim eqs (mvars M) gs (points_in (bs_rank eqs) eqs (mpoints M))).
Definition mc_setVariableSpace (M : mcim) (vars : bset) : res mcim :=
  _ <- assert_ok (Nat.eqb (bs_rank vars) (bs_rank (mvars M))) ;;
  gss <- map_res (fun g => v <- g_values g ;;
                           k <- inverse_map (gfun g) (bs_intersect v vars) (gkeys g) ;;
                           Ok (if bs_empty k then [] else [g_withKeys g k])) (mgroups M) ;;
  Ok (mkMcim (meqs M) vars (concat gss) (points_in (bs_rank vars) vars (mpoints M))).
End MCIM.
