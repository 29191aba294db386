(** Concrete histories used as counterexamples and as examples. *)
From Coq Require Import ZArith List Bool.
From Verif Require Import RangeModel MDRangeModel Result RTreeModel IndexSetModel IndexSetSpec.
Import ListNotations.
Open Scope Z_scope.

(** The box [a, b) x [c, d). *)
Definition box2 (a b c d : Z) : mdrange := [mkRange a b; mkRange c d].
(** The box of the single point (x, y). *)
Definition unit2 (q : Z * Z) : mdrange := box2 (fst q) (fst q + 1) (snd q) (snd q + 1).
Definition addUnit2 (q : Z * Z) : edit := Add (unit2 q).

(** Points whose successive additions end in an undefined behaviour. *)
Definition pointsUB : list (Z * Z) :=
  [(6, 2); (2, 4); (3, 3); (6, 6); (0, 6); (2, 6); (4, 0); (2, 2); (3, 1); (1, 5); (5, 1);
   (4, 2); (2, 0); (0, 2); (3, 5); (1, 1); (4, 6); (6, 0); (0, 4); (4, 4); (5, 5); (5, 3);
   (1, 3); (0, 0); (6, 4); (4, 1); (4, 3); (1, 6); (1, 0); (6, 3); (3, 0); (5, 2); (5, 4);
   (3, 4); (0, 1); (6, 1); (2, 3); (4, 5); (1, 2); (0, 5); (2, 1); (0, 3); (5, 6); (6, 5);
   (3, 6); (3, 2); (2, 5); (1, 4)].

(** A history with two removals: points added before the first one... *)
Definition pointsBefore : list (Z * Z) :=
  [(12, 22); (9, 13); (20, 6); (5, 15); (8, 16); (5, 27); (2, 12); (3, 17); (18, 0); (6, 24);
   (19, 19); (5, 25); (12, 0); (29, 7); (3, 19); (9, 23); (20, 0); (15, 27); (21, 23); (12,
   2); (2, 4); (26, 8); (27, 11); (11, 13); (8, 4); (23, 5); (25, 23); (1, 19); (15, 15); (4,
   16); (1, 3); (16, 12); (27, 7); (19, 15); (26, 24); (10, 26); (10, 20); (7, 23); (8, 10);
   (28, 6); (7, 27); (14, 20); (7, 21); (16, 6); (3, 9); (2, 10); (26, 6); (3, 1); (18, 24);
   (10, 22)].

(** ... and between the two. *)
Definition pointsBetween : list (Z * Z) :=
  [(6, 16)].

Definition historyLost : list edit :=
  map addUnit2 pointsBefore ++ [Remove (box2 26 27 7 8)] ++
  map addUnit2 pointsBetween ++ [Remove (box2 3 23 9 28)].

(** 64 spaced points, bulk loaded in 16 leaves, and 180 other points that fill
    all the leaves but one: the removal of one point of that leaf collapses it. *)
Definition spread : list point :=
  flat_map (fun k => map (fun j => [100 * k + j]) [0; 10; 20; 90]) (map Z.of_nat (seq 0 16)).
Definition filler : list point :=
  flat_map (fun k => if k =? 8 then [] else map (fun j => [100 * k + 30 + 2 * j])
                                              (map Z.of_nat (seq 0 12)))
    (map Z.of_nat (seq 0 16)).
