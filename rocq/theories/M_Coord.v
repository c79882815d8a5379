(** Model of include/nektar_interface/coordinate_mapping.hpp over exact reals. *)
From Verif Require Export M_Grid.

(** NekConstants::kNekZeroTol (Nektar++ BasicConst/NektarUnivConsts.hpp): 1.0e-12 *)
Definition kNekZeroTol : R := / 10 ^ 12.
(** checked division: [None] models the inf/NaN produced by a zero divisor *)
Definition rdiv (a b : R) : option R := if Req_bool b 0 then None else Some (a / b).

Notation pt2 := (R * R)%type.
Notation pt3 := (R * R * R)%type.

(** The guard applied to each divisor, e.g. 184-197 (Tetrahedron), 244-250 (Pyramid),
    300-306 (Prism), 420-428 and 641-648 (Triangle / 2D dispatch), 576-591 (3D dispatch).
    All occurrences are the same three-way choice. *)
Definition guard (d : R) : R :=
  if Rlt_bool (Rabs d) kNekZeroTol
  then (if Rle_bool 0 d then kNekZeroTol else - kNekZeroTol)
  else d.

(** Tetrahedron::loc_coord_to_loc_collapsed_v 170-200 *)
Definition tet_to_collapsed (xi : pt3) : option pt3 :=
  let '(xi0, xi1, xi2) := xi in
  let d2 := guard (1 - xi2) in
  let d12 := guard (- xi1 - xi2) in
  do a <- rdiv (2 * (1 + xi0)) d12;
  do b <- rdiv (2 * (1 + xi1)) d2;
  Some (a - 1, b - 1, xi2).
(** Tetrahedron::loc_collapsed_to_loc_coord_v 215-222 *)
Definition tet_to_loc (eta : pt3) : pt3 :=
  let '(eta0, eta1, eta2) := eta in
  let xi1 := (1 + eta1) * (1 - eta2) * (1/2) - 1 in
  let xi0 := (1 + eta0) * (- xi1 - eta2) * (1/2) - 1 in
  (xi0, xi1, eta2).
(** Pyramid::loc_coord_to_loc_collapsed_v 236-254 *)
Definition pyr_to_collapsed (xi : pt3) : option pt3 :=
  let '(xi0, xi1, xi2) := xi in
  let d2 := guard (1 - xi2) in
  do b <- rdiv (2 * (1 + xi1)) d2;
  do a <- rdiv (2 * (1 + xi0)) d2;
  Some (a - 1, b - 1, xi2).
(** Pyramid::loc_collapsed_to_loc_coord_v 262-269 *)
Definition pyr_to_loc (eta : pt3) : pt3 :=
  let '(eta0, eta1, eta2) := eta in
  ((1 + eta0) * (1 - eta2) * (1/2) - 1, (1 + eta1) * (1 - eta2) * (1/2) - 1, eta2).
(** Prism::loc_coord_to_loc_collapsed_v 292-309 *)
Definition prism_to_collapsed (xi : pt3) : option pt3 :=
  let '(xi0, xi1, xi2) := xi in
  let d2 := guard (1 - xi2) in
  do a <- rdiv (2 * (1 + xi0)) d2;
  Some (a - 1, xi1, xi2).
(** Prism::loc_collapsed_to_loc_coord_v 317-324 *)
Definition prism_to_loc (eta : pt3) : pt3 :=
  let '(eta0, eta1, eta2) := eta in
  ((1 + eta0) * (1 - eta2) * (1/2) - 1, eta1, eta2).
(** Hexahedron 326-370 *)
Definition hex_to_collapsed (xi : pt3) : option pt3 := Some xi.
Definition hex_to_loc (eta : pt3) : pt3 := eta.
(** Quadrilateral 372-408 *)
Definition quad_to_collapsed (xi : pt2) : option pt2 := Some xi.
Definition quad_to_loc (eta : pt2) : pt2 := eta.
(** Triangle::loc_coord_to_loc_collapsed_v 420-436: the two nested conditionals with
    mask_small_cond are [guard]. *)
Definition tri_to_collapsed (xi : pt2) : option pt2 :=
  let '(xi0, xi1) := xi in
  let d1 := guard (1 - xi1) in
  do a <- rdiv (2 * (1 + xi0)) d1;
  Some (a - 1, xi1).
(** Triangle::loc_collapsed_to_loc_coord_v 448-453 *)
Definition tri_to_loc (eta : pt2) : pt2 :=
  let '(eta0, eta1) := eta in ((1 + eta0) * (1 - eta1) * (1/2) - 1, eta1).

(** LibUtilities::ShapeType values of Nektar++ (cast by shape_type_to_int). *)
Definition eTriangle := 3%Z.
Definition eQuadrilateral := 4%Z.
Definition eTetrahedron := 5%Z.
Definition ePyramid := 6%Z.
Definition ePrism := 7%Z.
Definition eHexahedron := 8%Z.

(** loc_collapsed_to_loc_coord(shape_type, ...) 467-537 *)
Definition generic_to_loc_3d (shape_type : Z) (eta : pt3) : pt3 :=
  let '(eta0, eta1, eta2) := eta in
  let a := 1 + eta0 in
  let b := 1 - eta2 in
  let c := (1 + eta1) * b * (1/2) - 1 in
  let d := a * b * (1/2) - 1 in
  let xi1 := if Z.eqb shape_type eTetrahedron then c
             else if Z.eqb shape_type ePyramid then (1 + eta1) * b * (1/2) - 1 else eta1 in
  let tet_x := (1 + eta0) * (- xi1 - eta2) * (1/2) - 1 in
  let xi0 := if Z.eqb shape_type eTetrahedron then tet_x
             else if Z.eqb shape_type eHexahedron then eta0 else d in
  (xi0, xi1, eta2).
(** loc_coord_to_loc_collapsed_3d 567-607; every division is performed whatever the shape *)
Definition generic_to_collapsed_3d (shape_type : Z) (xi : pt3) : option pt3 :=
  let '(xi0, xi1, xi2) := xi in
  let d2 := guard (1 - xi2) in
  let d12 := guard (- xi1 - xi2) in
  do id2x2 <- rdiv 2 d2;
  let a := 1 + xi0 in
  let b := (1 + xi1) * id2x2 - 1 in
  let c := a * id2x2 - 1 in
  do q <- rdiv (2 * a) d12;
  let d := q - 1 in
  Some ((if Z.eqb shape_type eTetrahedron then d else if Z.eqb shape_type eHexahedron then xi0 else c),
        (if Z.eqb shape_type eTetrahedron || Z.eqb shape_type ePyramid then b else xi1),
        xi2).
(** loc_coord_to_loc_collapsed_2d 636-651 *)
Definition generic_to_collapsed_2d (shape_type : Z) (xi : pt2) : option pt2 :=
  let '(xi0, xi1) := xi in
  let d1 := guard (1 - xi1) in
  do a <- rdiv (2 * (1 + xi0)) d1;
  Some (if Z.eqb eTriangle shape_type then a - 1 else xi0, xi1).
(** loc_collapsed_to_loc_coord_2d 663-671 *)
Definition generic_to_loc_2d (shape_type : Z) (eta : pt2) : pt2 :=
  let '(eta0, eta1) := eta in
  (if Z.eqb shape_type eTriangle then (1 + eta0) * (1 - eta1) * (1/2) - 1 else eta0, eta1).

(** A coordinate as the clamp sees it: a finite double, or an inf/NaN. *)
Inductive coord := Fin (x : R) | NonFinite.
(** clamp_loc_coord 682-698: new value and "was clamped" *)
Definition clamp_loc_coord (tol : R) (c : coord) : coord * bool :=
  match c with
  | NonFinite => (Fin 0, true)
  | Fin x =>
      if Rlt_bool x (- (1 + tol)) then (Fin (- (1 + tol)), true)
      else if Rlt_bool (1 + tol) x then (Fin (1 + tol), true)
      else (Fin x, false)
  end.
(** clamp_loc_coords 710-714: [||] does not evaluate its right operand when the left is true *)
Definition clamp_loc_coords2 (tol : R) (c0 c1 : coord) : coord * coord * bool :=
  let '(c0', b0) := clamp_loc_coord tol c0 in
  if b0 then (c0', c1, true)
  else let '(c1', b1) := clamp_loc_coord tol c1 in (c0', c1', b1).
(** clamp_loc_coords 727-731 *)
Definition clamp_loc_coords3 (tol : R) (c0 c1 c2 : coord) : coord * coord * coord * bool :=
  let '(c0', b0) := clamp_loc_coord tol c0 in
  if b0 then (c0', c1, c2, true)
  else let '(c1', c2', b) := clamp_loc_coords2 tol c1 c2 in (c0', c1', c2', b).
