(** Model of the local matching options: lib/Modeling/LocalMatchingSolutions.cpp,
    LocalMatchingSolutionsVAF.cpp, LocalMatchingSolutionsMCIM.cpp and
    MCIM::splitGroups.

    A generator is the list of the matrices it has still to give: the C++ ones
    compute them one at a time, in the same order. *)
From Coq Require Import ZArith List Bool.
From Verif Require Import RangeModel MDRangeModel Result BoxSetModel AccessModel MCIMModel.
Import ListNotations.
Open Scope Z_scope.

(** IndexSet.cpp:1144-1232: the ranges of an index set have no point in common,
    so that an iteration meets each point once; those of a [bset] may overlap. *)
Definition bs_elements (s : bset) : list point := nodup (list_eq_dec Z.eq_dec) (bs_points s).
(** IndexSet.cpp:402-418, flatSize. *)
Definition bs_size (s : bset) : nat := length (bs_elements s).

(** LocalMatchingSolutions.cpp:38-46 and 50-58, the entries of a row or column,
    and a loop over them. *)
Fixpoint count_entries (M : mcim) (l : list (point * point)) : res nat :=
  match l with
  | [] => Ok 0%nat
  | (e, v) :: l' => b <- mc_get M e v ;; c <- count_entries M l' ;; Ok (if b : bool then S c else c)
  end.
Fixpoint at_most_one (M : mcim) (lines : list (list (point * point))) : res bool :=
  match lines with
  | [] => Ok true
  | l :: lines' => c <- count_entries M l ;; if Nat.ltb 1 c then Ok false else at_most_one M lines'
  end.
(** LocalMatchingSolutions.cpp:33-62, isValidLocalMatchingSolution. *)
Definition lm_valid (M : mcim) : res bool :=
  let es := bs_elements (meqs M) in
  let vs := bs_elements (mvars M) in
  rows <- at_most_one M (map (fun e => map (fun v => (e, v)) vs) es) ;;
  if rows : bool then at_most_one M (map (fun v => map (fun e => (e, v)) es) vs) else Ok false.

(** LocalMatchingSolutionsVAF.cpp:77-82, 172-177, 252-257, setValue. *)
Definition lm_checked (M : mcim) : res mcim := b <- lm_valid M ;; _ <- assert_ok b ;; Ok M.

Section M.
Variable m : mlir.

(** LocalMatchingSolutionsVAF.cpp:84-117, GeneratorDefault. *)
Definition gen_default (eqs vars : bset) (f : afun) : res (list mcim) :=
  l <- map_res (fun e =>
         s <- af_map_point f e ;;
         map_res (fun v => M <- mc_set m (mc_new eqs vars) e v ;; lm_checked M) (bs_elements s))
       (bs_elements eqs) ;;
  Ok (concat l).
(** LocalMatchingSolutionsVAF.cpp:184-195, GeneratorAffineConstant. *)
Definition gen_constant (eqs vars : bset) (f : afun) : res (list mcim) :=
  map_res (fun e => M <- mc_apply m (mc_new eqs vars) (bs_point e) f ;; lm_checked M) (bs_elements eqs).

(** AccessFunctionRotoTranslation.cpp:294-307, countVariablesUsages. *)
Definition usages (n : nat) (rs : list aexpr) : list nat :=
  map (fun d => length (filter (fun e => match inductionVar e with Some x => Nat.eqb x d | None => false end) rs))
      (seq 0 n).
(** LocalMatchingSolutionsVAF.cpp:289-305: the ranges of the unused dimensions;
    334-337: the ranges of a box where the unused dimensions have one value. *)
Fixpoint unused_ranges (us : list nat) (b : mdrange) : mdrange :=
  match us, b with
  | u :: us', r :: b' => match u with O => r :: unused_ranges us' b' | _ => unused_ranges us' b' end
  | _, _ => []
  end.
Fixpoint fill_unused (us : list nat) (b : mdrange) (p : point) : mdrange :=
  match us, b with
  | u :: us', r :: b' =>
      match u with
      | O => match p with v :: p' => mkRange v (v + 1) :: fill_unused us' b' p' | [] => [] end
      | _ => r :: fill_unused us' b' p
      end
  | _, _ => []
  end.
(** LocalMatchingSolutionsVAF.cpp:272-350, GeneratorRotoTranslation. *)
Definition gen_boxes (us : list nat) (b : mdrange) : list mdrange :=
  match unused_ranges us b with
  | [] => [b]
  | u => map (fill_unused us b) (box_points u)
  end.
Definition gen_roto (eqs vars : bset) (n : nat) (rs : list aexpr) : res (list mcim) :=
  map_res (fun b => M <- mc_apply m (mc_new eqs vars) [b] (AFRoto n rs) ;; lm_checked M)
    (flat_map (gen_boxes (usages n rs)) eqs).

(** LocalMatchingSolutionsVAF.cpp:517-532, getGenerator. *)
Definition gen_of (eqs vars : bset) (f : afun) : res (list mcim) :=
  match f with
  | AFAffineConstant _ _ => gen_constant eqs vars f
  | AFRoto n rs => gen_roto eqs vars n rs
  | _ => gen_default eqs vars f
  end.

(** LocalMatchingSolutionsVAF.cpp:462-515, getSolutionsAmount. *)
Definition amount (eqs : bset) (f : afun) : res nat :=
  match f with
  | AFAffineConstant _ _ => Ok (bs_size eqs)
  | AFConstant _ _ => s <- af_map_set f [] ;; Ok (bs_size eqs * bs_size s)%nat
  | AFRoto n rs =>
      Ok (list_sum (map (fun b => fold_left (fun c r => (c * Z.to_nat (range_size r))%nat)
                                    (unused_ranges (usages n rs) b) 1%nat) eqs))
  | _ => l <- map_res (fun e => s <- af_map_point f e ;; Ok (bs_size s)) (bs_elements eqs) ;; Ok (list_sum l)
  end.

(** LocalMatchingSolutionsVAF.h:69-80, the progress of the computation. *)
Record vaf := mkVaf { vmatrices : list mcim; vcurrent : nat; vgen : option (list mcim) }.
(** LocalMatchingSolutionsVAF.cpp:407-411, the loop to the next generator with
    a value ([fuel]: the number of functions). *)
Fixpoint vaf_advance (fuel : nat) (fs : list afun) (eqs vars : bset) (st : vaf) : res vaf :=
  match vgen st with
  | Some [] =>
      match fuel, nth_error fs (vcurrent st) with
      | S fuel', Some f =>
          g <- gen_of eqs vars f ;;
          vaf_advance fuel' fs eqs vars (mkVaf (vmatrices st) (S (vcurrent st)) (Some g))
      | _, _ => Ok st
      end
  | _ => Ok st
  end.
(** LocalMatchingSolutionsVAF.cpp:399-419, fetchNext. The functions [fs] are
    those of the object after the sort of its constructor. *)
Definition vaf_fetch (fs : list afun) (eqs vars : bset) (st : vaf) : res vaf :=
  st1 <- match vgen st, nth_error fs (vcurrent st) with
         | None, Some f => g <- gen_of eqs vars f ;; Ok (mkVaf (vmatrices st) (vcurrent st + 2) (Some g))
         | _, _ => Ok st
         end ;;
  st2 <- vaf_advance (length fs) fs eqs vars st1 ;;
  Ok (match vgen st2 with
      | Some (x :: r) => mkVaf (vmatrices st2 ++ [x]) (vcurrent st2) (Some r)
      | _ => mkVaf (vmatrices st2) (vcurrent st2) None
      end).
(** LocalMatchingSolutionsVAF.cpp:368-376, operator[]: the loop of at most
    [fuel] fetches. *)
Fixpoint vaf_index (fuel : nat) (fs : list afun) (eqs vars : bset) (st : vaf) (i : nat) : res (vaf * mcim) :=
  match nth_error (vmatrices st) i with
  | Some M => Ok (st, M)
  | None => match fuel with
            | O => NoFuel
            | S fuel' => st' <- vaf_fetch fs eqs vars st ;; vaf_index fuel' fs eqs vars st' i
            end
  end.
(** LocalMatchingSolutions.cpp:26-31: the iteration over the solutions. *)
Fixpoint vaf_iterate (fuel : nat) (fs : list afun) (eqs vars : bset) (st : vaf) (l : list nat) : res (list mcim) :=
  match l with
  | [] => Ok []
  | i :: l' => q <- vaf_index fuel fs eqs vars st i ;;
               r <- vaf_iterate fuel fs eqs vars (fst q) l' ;; Ok (snd q :: r)
  end.
(** LocalMatchingSolutionsVAF.cpp:382-397, initialize, and the iteration. *)
Definition vaf_solutions (fuel : nat) (fs : list afun) (eqs vars : bset) : res (list mcim) :=
  l <- map_res (amount eqs) fs ;;
  vaf_iterate fuel fs eqs vars (mkVaf [] 0 None) (seq 0 (list_sum l)).

(** MCIM.cpp:580-611, splitGroups. *)
Definition split_group (M : mcim) (g : group) : res (list mcim) :=
  _ <- assert_ok (bs_contains (meqs M) (gkeys g)) ;;
  vs <- g_values g ;;
  _ <- assert_ok (bs_contains (mvars M) vs) ;;
  l <- vaf_solutions 1 [gfun g] (gkeys g) vs ;;
  map_res (fun S =>
    _ <- assert_ok (bs_eq (meqs S) (gkeys g)) ;;
    _ <- assert_ok (bs_eq (mvars S) vs) ;;
    Ok (mkMcim (meqs M) (mvars M) (mgroups S) (mpoints S))) l.
Definition split_point (M : mcim) (p : point) : res mcim :=
  mc_set m (mc_new (meqs M) (mvars M)) (firstn (bs_rank (meqs M)) p)
    (skipn (length p - bs_rank (mvars M)) p).
Definition mc_splitGroups (M : mcim) : res (list mcim) :=
  l <- map_res (split_group M) (mgroups M) ;;
  ps <- map_res (split_point M) (bs_elements (mpoints M)) ;;
  Ok (concat l ++ ps).

(** LocalMatchingSolutionsMCIM.cpp:26-43, allIndicesCovered. *)
Fixpoint any_entry (Ss : list mcim) (e v : point) : res bool :=
  match Ss with
  | [] => Ok false
  | T :: Ss' => b <- mc_get T e v ;; if b : bool then Ok true else any_entry Ss' e v
  end.
Fixpoint lm_covered (M : mcim) (Ss : list mcim) (l : list (point * point)) : res bool :=
  match l with
  | [] => Ok true
  | (e, v) :: l' =>
      b <- mc_get M e v ;;
      c <- (if b : bool then any_entry Ss e v else Ok true) ;;
      if c : bool then lm_covered M Ss l' else Ok false
  end.
(** LocalMatchingSolutionsMCIM.cpp:14-24, compute; LocalMatchingSolutions.cpp:71,
    solveLocalMatchingProblem. *)
Definition lm_solve (M : mcim) : res (list mcim) :=
  l <- mc_splitGroups M ;;
  Ss <- map_res lm_checked l ;;
  c <- lm_covered M Ss (mc_indices M) ;;
  _ <- assert_ok c ;;
  Ok Ss.
End M.
