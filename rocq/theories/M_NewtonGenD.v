(** GENERATED by tools/gen_newton.py /repo expr; do not edit by hand.
    The residual functions newton_f_linear_{2,3}d of include/nektar_interface/particle_cell_mapping/generated_linear/*.hpp, statement by
    statement, as expressions of M_DoubleExpr (temporaries are lets, so they expand where they are used); without the pyramid's, which divides. *)
From Coq Require Import ZArith.
From Verif Require Import M_DoubleExpr.
Open Scope ex_scope.
Definition c1 := ELit 1%Z 0%Z.
Definition c1_2 := ELit 1%Z (-1)%Z.
Definition c1_4 := ELit 1%Z (-2)%Z.
Definition c1_8 := ELit 1%Z (-3)%Z.

(** include/nektar_interface/particle_cell_mapping/generated_linear/quadrilateral.hpp 126-143: newton_f_linear_2d *)
Definition quad_f_e (xi0 xi1 v00 v01 v10 v11 v20 v21 v30 v31 phys0 phys1 : ex) : (ex * ex)%type :=
  let x0 := xi0 - c1 in
  let x1 := xi1 - c1 in
  let x2 := xi0 + c1 in
  let x3 := c1_4 * x1 * x2 in
  let x4 := xi1 + c1 in
  let x5 := c1_4 * x0 * x4 in
  let f0_tmp := -phys0 + c1_4 * v00 * x0 * x1 - v10 * x3 + c1_4 * v20 * x2 * x4 - v30 * x5 in
  let f1_tmp := -phys1 + c1_4 * v01 * x0 * x1 - v11 * x3 + c1_4 * v21 * x2 * x4 - v31 * x5 in
  (f0_tmp, f1_tmp).

(** include/nektar_interface/particle_cell_mapping/generated_linear/tetrahedron.hpp 161-180: newton_f_linear_3d *)
Definition tet_f_e (xi0 xi1 xi2 v00 v01 v02 v10 v11 v12 v20 v21 v22 v30 v31 v32 phys0 phys1 phys2 : ex) : (ex * ex * ex)%type :=
  let x0 := c1_2 * xi0 + c1_2 in
  let x1 := c1_2 * xi1 + c1_2 in
  let x2 := c1_2 * xi2 + c1_2 in
  let f0_tmp := -phys0 + v00 - x0 * (v00 - v10) - x1 * (v00 - v20) - x2 * (v00 - v30) in
  let f1_tmp := -phys1 + v01 - x0 * (v01 - v11) - x1 * (v01 - v21) - x2 * (v01 - v31) in
  let f2_tmp := -phys2 + v02 - x0 * (v02 - v12) - x1 * (v02 - v22) - x2 * (v02 - v32) in
  (f0_tmp, f1_tmp, f2_tmp).

(** include/nektar_interface/particle_cell_mapping/generated_linear/prism.hpp 202-232: newton_f_linear_3d *)
Definition prism_f_e (xi0 xi1 xi2 v00 v01 v02 v10 v11 v12 v20 v21 v22 v30 v31 v32 v40 v41 v42 v50 v51 v52 phys0 phys1 phys2 : ex) : (ex * ex * ex)%type :=
  let x0 := xi0 + xi2 in
  let x1 := xi1 - c1 in
  let x2 := xi0 + c1 in
  let x3 := c1_4 * x1 in
  let x4 := x2 * x3 in
  let x5 := xi1 + c1 in
  let x6 := c1_4 * x0 * x5 in
  let x7 := xi2 + c1 in
  let x8 := x3 * x7 in
  let f0_tmp := -phys0 + c1_4 * v00 * x0 * x1 - v10 * x4 + c1_4 * v20 * x2 * x5 - v30 * x6 - v40 * x8 + c1_4 * v50 * x5 * x7 in
  let f1_tmp := -phys1 + c1_4 * v01 * x0 * x1 - v11 * x4 + c1_4 * v21 * x2 * x5 - v31 * x6 - v41 * x8 + c1_4 * v51 * x5 * x7 in
  let f2_tmp := -phys2 + c1_4 * v02 * x0 * x1 - v12 * x4 + c1_4 * v22 * x2 * x5 - v32 * x6 - v42 * x8 + c1_4 * v52 * x5 * x7 in
  (f0_tmp, f1_tmp, f2_tmp).

(** include/nektar_interface/particle_cell_mapping/generated_linear/hexahedron.hpp 243-281: newton_f_linear_3d *)
Definition hex_f_e (xi0 xi1 xi2 v00 v01 v02 v10 v11 v12 v20 v21 v22 v30 v31 v32 v40 v41 v42 v50 v51 v52 v60 v61 v62 v70 v71 v72 phys0 phys1 phys2 : ex) : (ex * ex * ex)%type :=
  let x0 := xi0 - c1 in
  let x1 := xi1 - c1 in
  let x2 := xi2 - c1 in
  let x3 := c1_8 * x2 in
  let x4 := x0 * x1 * x3 in
  let x5 := xi0 + c1 in
  let x6 := xi1 + c1 in
  let x7 := x3 * x5 * x6 in
  let x8 := xi2 + c1 in
  let x9 := c1_8 * x8 in
  let x10 := x1 * x5 * x9 in
  let x11 := x0 * x6 * x9 in
  let f0_tmp := -phys0 - v00 * x4 + c1_8 * v10 * x1 * x2 * x5 - v20 * x7 + c1_8 * v30 * x0 * x2 * x6 + c1_8 * v40 * x0 * x1 * x8 - v50 * x10 + c1_8 * v60 * x5 * x6 * x8 - v70 * x11 in
  let f1_tmp := -phys1 - v01 * x4 + c1_8 * v11 * x1 * x2 * x5 - v21 * x7 + c1_8 * v31 * x0 * x2 * x6 + c1_8 * v41 * x0 * x1 * x8 - v51 * x10 + c1_8 * v61 * x5 * x6 * x8 - v71 * x11 in
  let f2_tmp := -phys2 - v02 * x4 + c1_8 * v12 * x1 * x2 * x5 - v22 * x7 + c1_8 * v32 * x0 * x2 * x6 + c1_8 * v42 * x0 * x1 * x8 - v52 * x10 + c1_8 * v62 * x5 * x6 * x8 - v72 * x11 in
  (f0_tmp, f1_tmp, f2_tmp).

(** include/nektar_interface/particle_cell_mapping/generated_linear/quadrilateralembed3d.hpp 180-203: newton_f_linear_2d *)
Definition quademb_f_e (xi0 xi1 xi2 v00 v01 v02 v10 v11 v12 v20 v21 v22 v30 v31 v32 v40 v41 v42 phys0 phys1 phys2 : ex) : (ex * ex * ex)%type :=
  let x0 := xi0 - c1 in
  let x1 := xi1 - c1 in
  let x2 := xi0 + c1 in
  let x3 := c1_4 * x1 * x2 in
  let x4 := xi1 + c1 in
  let x5 := c1_4 * x0 * x4 in
  let f0_tmp := -phys0 + c1_4 * v00 * x0 * x1 - v10 * x3 + c1_4 * v20 * x2 * x4 - v30 * x5 + v40 * xi2 in
  let f1_tmp := -phys1 + c1_4 * v01 * x0 * x1 - v11 * x3 + c1_4 * v21 * x2 * x4 - v31 * x5 + v41 * xi2 in
  let f2_tmp := -phys2 + c1_4 * v02 * x0 * x1 - v12 * x3 + c1_4 * v22 * x2 * x4 - v32 * x5 + v42 * xi2 in
  (f0_tmp, f1_tmp, f2_tmp).

