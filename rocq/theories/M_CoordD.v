(** Double precision version of include/nektar_interface/coordinate_mapping.hpp (exact version: M_Coord). Every operation is rounded as
    written; a product followed by an addition or subtraction may be contracted (the flags [f]). An infinite result or a division by zero is
    [None]. In loc_collapsed_to_loc_coord the product contracted is the one with 0.5. *)
From Coq Require Import Reals ZArith List Bool.
From Flocq Require Import Core.
From Verif Require Import M_RealBase M_Grid M_Double M_BorisD M_Coord.
Import ListNotations.
Open Scope R_scope.

(** NekConstants::kNekZeroTol is the double nearest to 1.0e-12 *)
Definition ztol : R := rnd (/ 10 ^ 12).
(** the guard of each divisor, lines as in [guard] of M_Coord *)
Definition guard_d (d : R) : R :=
  if Rlt_bool (Rabs d) ztol then (if Rle_bool 0 d then ztol else - ztol) else d.
(** 2.0 * (1.0 + x) / d - 1.0 *)
Definition ratio_d (x d : R) : option R := do a <- fl (1 + x); do b <- fl (2 * a); do q <- div_d b d; fl (q - 1).
(** Triangle 423-436; Prism 292-309; Pyramid 236-254; Tetrahedron 170-200 *)
Definition tri_to_collapsed_d (xi : pt2) : option pt2 :=
  let '(x0, x1) := xi in do d1 <- fl (1 - x1); do e0 <- ratio_d x0 (guard_d d1); Some (e0, x1).
Definition prism_to_collapsed_d (xi : pt3) : option pt3 :=
  let '(x0, x1, x2) := xi in do d2 <- fl (1 - x2); do e0 <- ratio_d x0 (guard_d d2); Some (e0, x1, x2).
Definition pyr_to_collapsed_d (xi : pt3) : option pt3 :=
  let '(x0, x1, x2) := xi in do d2 <- fl (1 - x2); do e1 <- ratio_d x1 (guard_d d2); do e0 <- ratio_d x0 (guard_d d2); Some (e0, e1, x2).
Definition tet_to_collapsed_d (xi : pt3) : option pt3 :=
  let '(x0, x1, x2) := xi in
  do d2 <- fl (1 - x2); do d12 <- fl (- x1 - x2);
  do e0 <- ratio_d x0 (guard_d d12); do e1 <- ratio_d x1 (guard_d d2); Some (e0, e1, x2).
(** (1.0 + e) * b * 0.5 - 1.0 *)
Definition unratio_d (f : bool) (e b : R) : option R := do a <- fl (1 + e); do p <- fl (a * b); mul_add f p (1 / 2) (-1).
(** Triangle 448-453, Prism 317-324, Pyramid 262-269, Tetrahedron 215-222; the dispatch by shape number 467-537, 663-671 evaluates the same
    expressions *)
Definition tri_to_loc_d (f : bool) (eta : pt2) : option pt2 :=
  let '(e0, e1) := eta in do b <- fl (1 - e1); do x0 <- unratio_d f e0 b; Some (x0, e1).
Definition prism_to_loc_d (f : bool) (eta : pt3) : option pt3 :=
  let '(e0, e1, e2) := eta in do b <- fl (1 - e2); do x0 <- unratio_d f e0 b; Some (x0, e1, e2).
Definition pyr_to_loc_d (f : bool) (eta : pt3) : option pt3 :=
  let '(e0, e1, e2) := eta in do b <- fl (1 - e2); do x0 <- unratio_d f e0 b; do x1 <- unratio_d f e1 b; Some (x0, x1, e2).
Definition tet_to_loc_d (f : bool) (eta : pt3) : option pt3 :=
  let '(e0, e1, e2) := eta in
  do b <- fl (1 - e2); do x1 <- unratio_d f e1 b; do c <- fl (- x1 - e2); do x0 <- unratio_d f e0 c; Some (x0, x1, e2).
(** loc_coord_to_loc_collapsed_3d 567-607: 2 / d2 is formed once and multiplied *)
Definition generic_to_collapsed_3d_d (fb fc : bool) (shape_type : Z) (xi : pt3) : option pt3 :=
  let '(x0, x1, x2) := xi in
  do r2 <- fl (1 - x2); do r12 <- fl (- x1 - x2); let d2 := guard_d r2 in let d12 := guard_d r12 in
  do id2x2 <- div_d 2 d2; do a <- fl (1 + x0); do a1 <- fl (1 + x1);
  do b <- mul_add fb a1 id2x2 (-1); do c <- mul_add fc a id2x2 (-1);
  do t <- fl (2 * a); do q <- div_d t d12; do d <- fl (q - 1);
  Some ((if Z.eqb shape_type eTetrahedron then d else if Z.eqb shape_type eHexahedron then x0 else c),
        (if Z.eqb shape_type eTetrahedron || Z.eqb shape_type ePyramid then b else x1), x2).
(** loc_coord_to_loc_collapsed_2d 636-651 *)
Definition generic_to_collapsed_2d_d (shape_type : Z) (xi : pt2) : option pt2 :=
  let '(x0, x1) := xi in do d1 <- fl (1 - x1); do e0 <- ratio_d x0 (guard_d d1); Some (if Z.eqb eTriangle shape_type then e0 else x0, x1).
(** clamp_loc_coord 682-698 for a finite value: 1.0 + tol is rounded *)
Definition clamp_d (tol x : R) : option (R * bool) :=
  do t <- fl (1 + tol);
  Some (if Rlt_bool x (- t) then (- t, true) else if Rlt_bool t x then (t, true) else (x, false)).
