(** GENERATED by tools/gen_newton.py from /repo; do not edit by hand.
    Transcription, statement by statement, of the straight-line functions of
    include/nektar_interface/particle_cell_mapping/generated_linear/*.hpp
    (newton_step_linear_{2,3}d and newton_f_linear_{2,3}d of each element type). The binary literals 0.5, 0.25,
    0.125 are written 1/2, 1/4, 1/8; [double] is R; a division is checked: a zero divisor gives None (the code
    would produce inf or NaN). The unused phys arguments of the step functions are kept. *)
From Verif Require Import M_RealBase M_Coord.


(** include/nektar_interface/particle_cell_mapping/generated_linear/quadrilateral.hpp 67-92: newton_step_linear_2d *)
Definition quad_step (xi0 xi1 v00 v01 v10 v11 v20 v21 v30 v31 phys0 phys1 f0 f1 : R) : option (R * R) :=
  let x0 := xi1 - 1 in
  let x1 := xi1 + 1 in
  let x2 := xi0 - 1 in
  let x3 := xi0 + 1 in
  let J00 := (1/4) * v00 * x0 - (1/4) * v10 * x0 + (1/4) * v20 * x1 - (1/4) * v30 * x1 in
  let J01 := (1/4) * v00 * x2 - (1/4) * v10 * x3 + (1/4) * v20 * x3 - (1/4) * v30 * x2 in
  let J10 := (1/4) * v01 * x0 - (1/4) * v11 * x0 + (1/4) * v21 * x1 - (1/4) * v31 * x1 in
  let J11 := (1/4) * v01 * x2 - (1/4) * v11 * x3 + (1/4) * v21 * x3 - (1/4) * v31 * x2 in
  let y0 := J00 * J11 in
  let y1 := J01 * J10 in
  match rdiv (1) ((y0 - y1)) with None => None | Some y2 =>
  let xin0_tmp := y2 * (J01 * f1 - J11 * f0 + xi0 * y0 - xi0 * y1) in
  let xin1_tmp := y2 * (-J00 * f1 + J10 * f0 + xi1 * y0 - xi1 * y1) in
  Some (xin0_tmp, xin1_tmp) end.

(** include/nektar_interface/particle_cell_mapping/generated_linear/quadrilateral.hpp 126-143: newton_f_linear_2d *)
Definition quad_f (xi0 xi1 v00 v01 v10 v11 v20 v21 v30 v31 phys0 phys1 : R) : option (R * R) :=
  let x0 := xi0 - 1 in
  let x1 := xi1 - 1 in
  let x2 := xi0 + 1 in
  let x3 := (1/4) * x1 * x2 in
  let x4 := xi1 + 1 in
  let x5 := (1/4) * x0 * x4 in
  let f0_tmp := -phys0 + (1/4) * v00 * x0 * x1 - v10 * x3 + (1/4) * v20 * x2 * x4 - v30 * x5 in
  let f1_tmp := -phys1 + (1/4) * v01 * x0 * x1 - v11 * x3 + (1/4) * v21 * x2 * x4 - v31 * x5 in
  Some (f0_tmp, f1_tmp).

(** include/nektar_interface/particle_cell_mapping/generated_linear/tetrahedron.hpp 74-121: newton_step_linear_3d *)
Definition tet_step (xi0 xi1 xi2 v00 v01 v02 v10 v11 v12 v20 v21 v22 v30 v31 v32 phys0 phys1 phys2 f0 f1 f2 : R) : option (R * R * R) :=
  let J00 := (1/2) * (-v00 + v10) in
  let J01 := (1/2) * (-v00 + v20) in
  let J02 := (1/2) * (-v00 + v30) in
  let J10 := (1/2) * (-v01 + v11) in
  let J11 := (1/2) * (-v01 + v21) in
  let J12 := (1/2) * (-v01 + v31) in
  let J20 := (1/2) * (-v02 + v12) in
  let J21 := (1/2) * (-v02 + v22) in
  let J22 := (1/2) * (-v02 + v32) in
  let y0 := J11 * J22 in
  let y1 := J00 * y0 in
  let y2 := J01 * J12 in
  let y3 := J20 * y2 in
  let y4 := J02 * J21 in
  let y5 := J10 * y4 in
  let y6 := J12 * J21 in
  let y7 := J00 * y6 in
  let y8 := J01 * J22 in
  let y9 := J10 * y8 in
  let y10 := J02 * J11 in
  let y11 := J20 * y10 in
  match rdiv (1) ((y1 - y11 + y3 + y5 - y7 - y9)) with None => None | Some y12 =>
  let y13 := J00 * f2 in
  let y14 := J20 * f1 in
  let y15 := J10 * f0 in
  let y16 := J00 * f1 in
  let y17 := J10 * f2 in
  let y18 := J20 * f0 in
  let xin0_tmp := y12 * (-f0 * y0 + f0 * y6 - f1 * y4 + f1 * y8 + f2 * y10 - f2 * y2 + xi0 * y1 - xi0 * y11 + xi0 * y3 + xi0 * y5 - xi0 * y7 - xi0 * y9) in
  let xin1_tmp := y12 * (J02 * y14 - J02 * y17 + J12 * y13 - J12 * y18 + J22 * y15 - J22 * y16 + xi1 * y1 - xi1 * y11 + xi1 * y3 + xi1 * y5 - xi1 * y7 - xi1 * y9) in
  let xin2_tmp := y12 * (-J01 * y14 + J01 * y17 - J11 * y13 + J11 * y18 - J21 * y15 + J21 * y16 + xi2 * y1 - xi2 * y11 + xi2 * y3 + xi2 * y5 - xi2 * y7 - xi2 * y9) in
  Some (xin0_tmp, xin1_tmp, xin2_tmp) end.

(** include/nektar_interface/particle_cell_mapping/generated_linear/tetrahedron.hpp 161-180: newton_f_linear_3d *)
Definition tet_f (xi0 xi1 xi2 v00 v01 v02 v10 v11 v12 v20 v21 v22 v30 v31 v32 phys0 phys1 phys2 : R) : option (R * R * R) :=
  let x0 := (1/2) * xi0 + (1/2) in
  let x1 := (1/2) * xi1 + (1/2) in
  let x2 := (1/2) * xi2 + (1/2) in
  let f0_tmp := -phys0 + v00 - x0 * (v00 - v10) - x1 * (v00 - v20) - x2 * (v00 - v30) in
  let f1_tmp := -phys1 + v01 - x0 * (v01 - v11) - x1 * (v01 - v21) - x2 * (v01 - v31) in
  let f2_tmp := -phys2 + v02 - x0 * (v02 - v12) - x1 * (v02 - v22) - x2 * (v02 - v32) in
  Some (f0_tmp, f1_tmp, f2_tmp).

(** include/nektar_interface/particle_cell_mapping/generated_linear/prism.hpp 88-148: newton_step_linear_3d *)
Definition prism_step (xi0 xi1 xi2 v00 v01 v02 v10 v11 v12 v20 v21 v22 v30 v31 v32 v40 v41 v42 v50 v51 v52 phys0 phys1 phys2 f0 f1 f2 : R) : option (R * R * R) :=
  let x0 := xi1 + 1 in
  let x1 := xi1 - 1 in
  let x2 := v00 * x1 - v30 * x0 in
  let x3 := xi0 + xi2 in
  let x4 := xi0 + 1 in
  let x5 := xi2 + 1 in
  let x6 := v01 * x1 - v31 * x0 in
  let x7 := v02 * x1 - v32 * x0 in
  let J00 := -(1/4) * v10 * x1 + (1/4) * v20 * x0 + (1/4) * x2 in
  let J01 := (1/4) * v00 * x3 - (1/4) * v10 * x4 + (1/4) * v20 * x4 - (1/4) * v30 * x3 - (1/4) * v40 * x5 + (1/4) * v50 * x5 in
  let J02 := -(1/4) * v40 * x1 + (1/4) * v50 * x0 + (1/4) * x2 in
  let J10 := -(1/4) * v11 * x1 + (1/4) * v21 * x0 + (1/4) * x6 in
  let J11 := (1/4) * v01 * x3 - (1/4) * v11 * x4 + (1/4) * v21 * x4 - (1/4) * v31 * x3 - (1/4) * v41 * x5 + (1/4) * v51 * x5 in
  let J12 := -(1/4) * v41 * x1 + (1/4) * v51 * x0 + (1/4) * x6 in
  let J20 := -(1/4) * v12 * x1 + (1/4) * v22 * x0 + (1/4) * x7 in
  let J21 := (1/4) * v02 * x3 - (1/4) * v12 * x4 + (1/4) * v22 * x4 - (1/4) * v32 * x3 - (1/4) * v42 * x5 + (1/4) * v52 * x5 in
  let J22 := -(1/4) * v42 * x1 + (1/4) * v52 * x0 + (1/4) * x7 in
  let y0 := J11 * J22 in
  let y1 := J00 * y0 in
  let y2 := J01 * J12 in
  let y3 := J20 * y2 in
  let y4 := J02 * J21 in
  let y5 := J10 * y4 in
  let y6 := J12 * J21 in
  let y7 := J00 * y6 in
  let y8 := J01 * J22 in
  let y9 := J10 * y8 in
  let y10 := J02 * J11 in
  let y11 := J20 * y10 in
  match rdiv (1) ((y1 - y11 + y3 + y5 - y7 - y9)) with None => None | Some y12 =>
  let y13 := J00 * f2 in
  let y14 := J20 * f1 in
  let y15 := J10 * f0 in
  let y16 := J00 * f1 in
  let y17 := J10 * f2 in
  let y18 := J20 * f0 in
  let xin0_tmp := y12 * (-f0 * y0 + f0 * y6 - f1 * y4 + f1 * y8 + f2 * y10 - f2 * y2 + xi0 * y1 - xi0 * y11 + xi0 * y3 + xi0 * y5 - xi0 * y7 - xi0 * y9) in
  let xin1_tmp := y12 * (J02 * y14 - J02 * y17 + J12 * y13 - J12 * y18 + J22 * y15 - J22 * y16 + xi1 * y1 - xi1 * y11 + xi1 * y3 + xi1 * y5 - xi1 * y7 - xi1 * y9) in
  let xin2_tmp := y12 * (-J01 * y14 + J01 * y17 - J11 * y13 + J11 * y18 - J21 * y15 + J21 * y16 + xi2 * y1 - xi2 * y11 + xi2 * y3 + xi2 * y5 - xi2 * y7 - xi2 * y9) in
  Some (xin0_tmp, xin1_tmp, xin2_tmp) end.

(** include/nektar_interface/particle_cell_mapping/generated_linear/prism.hpp 202-232: newton_f_linear_3d *)
Definition prism_f (xi0 xi1 xi2 v00 v01 v02 v10 v11 v12 v20 v21 v22 v30 v31 v32 v40 v41 v42 v50 v51 v52 phys0 phys1 phys2 : R) : option (R * R * R) :=
  let x0 := xi0 + xi2 in
  let x1 := xi1 - 1 in
  let x2 := xi0 + 1 in
  let x3 := (1/4) * x1 in
  let x4 := x2 * x3 in
  let x5 := xi1 + 1 in
  let x6 := (1/4) * x0 * x5 in
  let x7 := xi2 + 1 in
  let x8 := x3 * x7 in
  let f0_tmp := -phys0 + (1/4) * v00 * x0 * x1 - v10 * x4 + (1/4) * v20 * x2 * x5 - v30 * x6 - v40 * x8 + (1/4) * v50 * x5 * x7 in
  let f1_tmp := -phys1 + (1/4) * v01 * x0 * x1 - v11 * x4 + (1/4) * v21 * x2 * x5 - v31 * x6 - v41 * x8 + (1/4) * v51 * x5 * x7 in
  let f2_tmp := -phys2 + (1/4) * v02 * x0 * x1 - v12 * x4 + (1/4) * v22 * x2 * x5 - v32 * x6 - v42 * x8 + (1/4) * v52 * x5 * x7 in
  Some (f0_tmp, f1_tmp, f2_tmp).

(** include/nektar_interface/particle_cell_mapping/generated_linear/hexahedron.hpp 91-186: newton_step_linear_3d *)
Definition hex_step (xi0 xi1 xi2 v00 v01 v02 v10 v11 v12 v20 v21 v22 v30 v31 v32 v40 v41 v42 v50 v51 v52 v60 v61 v62 v70 v71 v72 phys0 phys1 phys2 f0 f1 f2 : R) : option (R * R * R) :=
  let x0 := xi1 - 1 in
  let x1 := xi2 - 1 in
  let x2 := x0 * x1 in
  let x3 := xi1 + 1 in
  let x4 := x1 * x3 in
  let x5 := xi2 + 1 in
  let x6 := x0 * x5 in
  let x7 := x3 * x5 in
  let x8 := xi0 - 1 in
  let x9 := x1 * x8 in
  let x10 := xi0 + 1 in
  let x11 := x1 * x10 in
  let x12 := x10 * x5 in
  let x13 := x5 * x8 in
  let x14 := x0 * x8 in
  let x15 := x10 * x3 in
  let x16 := x0 * x10 in
  let x17 := x3 * x8 in
  let J00 := -(1/8) * v00 * x2 + (1/8) * v10 * x0 * x1 - (1/8) * v20 * x4 + (1/8) * v30 * x1 * x3 + (1/8) * v40 * x0 * x5 - (1/8) * v50 * x6 + (1/8) * v60 * x3 * x5 - (1/8) * v70 * x7 in
  let J01 := -(1/8) * v00 * x9 + (1/8) * v10 * x1 * x10 - (1/8) * v20 * x11 + (1/8) * v30 * x1 * x8 + (1/8) * v40 * x5 * x8 - (1/8) * v50 * x12 + (1/8) * v60 * x10 * x5 - (1/8) * v70 * x13 in
  let J02 := -(1/8) * v00 * x14 + (1/8) * v10 * x0 * x10 - (1/8) * v20 * x15 + (1/8) * v30 * x3 * x8 + (1/8) * v40 * x0 * x8 - (1/8) * v50 * x16 + (1/8) * v60 * x10 * x3 - (1/8) * v70 * x17 in
  let J10 := -(1/8) * v01 * x2 + (1/8) * v11 * x0 * x1 - (1/8) * v21 * x4 + (1/8) * v31 * x1 * x3 + (1/8) * v41 * x0 * x5 - (1/8) * v51 * x6 + (1/8) * v61 * x3 * x5 - (1/8) * v71 * x7 in
  let J11 := -(1/8) * v01 * x9 + (1/8) * v11 * x1 * x10 - (1/8) * v21 * x11 + (1/8) * v31 * x1 * x8 + (1/8) * v41 * x5 * x8 - (1/8) * v51 * x12 + (1/8) * v61 * x10 * x5 - (1/8) * v71 * x13 in
  let J12 := -(1/8) * v01 * x14 + (1/8) * v11 * x0 * x10 - (1/8) * v21 * x15 + (1/8) * v31 * x3 * x8 + (1/8) * v41 * x0 * x8 - (1/8) * v51 * x16 + (1/8) * v61 * x10 * x3 - (1/8) * v71 * x17 in
  let J20 := -(1/8) * v02 * x2 + (1/8) * v12 * x0 * x1 - (1/8) * v22 * x4 + (1/8) * v32 * x1 * x3 + (1/8) * v42 * x0 * x5 - (1/8) * v52 * x6 + (1/8) * v62 * x3 * x5 - (1/8) * v72 * x7 in
  let J21 := -(1/8) * v02 * x9 + (1/8) * v12 * x1 * x10 - (1/8) * v22 * x11 + (1/8) * v32 * x1 * x8 + (1/8) * v42 * x5 * x8 - (1/8) * v52 * x12 + (1/8) * v62 * x10 * x5 - (1/8) * v72 * x13 in
  let J22 := -(1/8) * v02 * x14 + (1/8) * v12 * x0 * x10 - (1/8) * v22 * x15 + (1/8) * v32 * x3 * x8 + (1/8) * v42 * x0 * x8 - (1/8) * v52 * x16 + (1/8) * v62 * x10 * x3 - (1/8) * v72 * x17 in
  let y0 := J11 * J22 in
  let y1 := J00 * y0 in
  let y2 := J01 * J12 in
  let y3 := J20 * y2 in
  let y4 := J02 * J21 in
  let y5 := J10 * y4 in
  let y6 := J12 * J21 in
  let y7 := J00 * y6 in
  let y8 := J01 * J22 in
  let y9 := J10 * y8 in
  let y10 := J02 * J11 in
  let y11 := J20 * y10 in
  match rdiv (1) ((y1 - y11 + y3 + y5 - y7 - y9)) with None => None | Some y12 =>
  let y13 := J00 * f2 in
  let y14 := J20 * f1 in
  let y15 := J10 * f0 in
  let y16 := J00 * f1 in
  let y17 := J10 * f2 in
  let y18 := J20 * f0 in
  let xin0_tmp := y12 * (-f0 * y0 + f0 * y6 - f1 * y4 + f1 * y8 + f2 * y10 - f2 * y2 + xi0 * y1 - xi0 * y11 + xi0 * y3 + xi0 * y5 - xi0 * y7 - xi0 * y9) in
  let xin1_tmp := y12 * (J02 * y14 - J02 * y17 + J12 * y13 - J12 * y18 + J22 * y15 - J22 * y16 + xi1 * y1 - xi1 * y11 + xi1 * y3 + xi1 * y5 - xi1 * y7 - xi1 * y9) in
  let xin2_tmp := y12 * (-J01 * y14 + J01 * y17 - J11 * y13 + J11 * y18 - J21 * y15 + J21 * y16 + xi2 * y1 - xi2 * y11 + xi2 * y3 + xi2 * y5 - xi2 * y7 - xi2 * y9) in
  Some (xin0_tmp, xin1_tmp, xin2_tmp) end.

(** include/nektar_interface/particle_cell_mapping/generated_linear/hexahedron.hpp 243-281: newton_f_linear_3d *)
Definition hex_f (xi0 xi1 xi2 v00 v01 v02 v10 v11 v12 v20 v21 v22 v30 v31 v32 v40 v41 v42 v50 v51 v52 v60 v61 v62 v70 v71 v72 phys0 phys1 phys2 : R) : option (R * R * R) :=
  let x0 := xi0 - 1 in
  let x1 := xi1 - 1 in
  let x2 := xi2 - 1 in
  let x3 := (1/8) * x2 in
  let x4 := x0 * x1 * x3 in
  let x5 := xi0 + 1 in
  let x6 := xi1 + 1 in
  let x7 := x3 * x5 * x6 in
  let x8 := xi2 + 1 in
  let x9 := (1/8) * x8 in
  let x10 := x1 * x5 * x9 in
  let x11 := x0 * x6 * x9 in
  let f0_tmp := -phys0 - v00 * x4 + (1/8) * v10 * x1 * x2 * x5 - v20 * x7 + (1/8) * v30 * x0 * x2 * x6 + (1/8) * v40 * x0 * x1 * x8 - v50 * x10 + (1/8) * v60 * x5 * x6 * x8 - v70 * x11 in
  let f1_tmp := -phys1 - v01 * x4 + (1/8) * v11 * x1 * x2 * x5 - v21 * x7 + (1/8) * v31 * x0 * x2 * x6 + (1/8) * v41 * x0 * x1 * x8 - v51 * x10 + (1/8) * v61 * x5 * x6 * x8 - v71 * x11 in
  let f2_tmp := -phys2 - v02 * x4 + (1/8) * v12 * x1 * x2 * x5 - v22 * x7 + (1/8) * v32 * x0 * x2 * x6 + (1/8) * v42 * x0 * x1 * x8 - v52 * x10 + (1/8) * v62 * x5 * x6 * x8 - v72 * x11 in
  Some (f0_tmp, f1_tmp, f2_tmp).

(** include/nektar_interface/particle_cell_mapping/generated_linear/pyramid.hpp 88-160: newton_step_linear_3d *)
Definition pyr_step (xi0 xi1 xi2 v00 v01 v02 v10 v11 v12 v20 v21 v22 v30 v31 v32 v40 v41 v42 phys0 phys1 phys2 f0 f1 f2 : R) : option (R * R * R) :=
  let x0 := xi1 + 1 in
  let x1 := xi2 - 1 in
  match rdiv (1) (x1) with None => None | Some x2 =>
  let x3 := x0 * x2 in
  let x4 := x3 + 1 in
  let x5 := v00 * x4 in
  let x6 := xi0 + 1 in
  let x7 := x2 * x6 in
  let x8 := x7 + 1 in
  let x9 := v00 * x8 in
  match rdiv (x0 * x6 * 1) ((x1 * x1)) with None => None | Some x10 =>
  let x11 := v01 * x4 in
  let x12 := v01 * x8 in
  let x13 := v02 * x4 in
  let x14 := v02 * x8 in
  let J00 := (1/2) * v10 * x4 - (1/2) * v20 * x3 + (1/2) * v30 * x0 * x2 - (1/2) * x5 in
  let J01 := (1/2) * v10 * x2 * x6 - (1/2) * v20 * x7 + (1/2) * v30 * x8 - (1/2) * x9 in
  let J02 := -(1/2) * v10 * x10 + (1/2) * v20 * x10 - (1/2) * v30 * x10 + (1/2) * v40 + (1/2) * x3 * x9 + (1/2) * x5 * x7 - (1/2) * x5 * x8 in
  let J10 := (1/2) * v11 * x4 - (1/2) * v21 * x3 + (1/2) * v31 * x0 * x2 - (1/2) * x11 in
  let J11 := (1/2) * v11 * x2 * x6 - (1/2) * v21 * x7 + (1/2) * v31 * x8 - (1/2) * x12 in
  let J12 := -(1/2) * v11 * x10 + (1/2) * v21 * x10 - (1/2) * v31 * x10 + (1/2) * v41 + (1/2) * x11 * x7 - (1/2) * x11 * x8 + (1/2) * x12 * x3 in
  let J20 := (1/2) * v12 * x4 - (1/2) * v22 * x3 + (1/2) * v32 * x0 * x2 - (1/2) * x13 in
  let J21 := (1/2) * v12 * x2 * x6 - (1/2) * v22 * x7 + (1/2) * v32 * x8 - (1/2) * x14 in
  let J22 := -(1/2) * v12 * x10 + (1/2) * v22 * x10 - (1/2) * v32 * x10 + (1/2) * v42 + (1/2) * x13 * x7 - (1/2) * x13 * x8 + (1/2) * x14 * x3 in
  let y0 := J11 * J22 in
  let y1 := J00 * y0 in
  let y2 := J01 * J12 in
  let y3 := J20 * y2 in
  let y4 := J02 * J21 in
  let y5 := J10 * y4 in
  let y6 := J12 * J21 in
  let y7 := J00 * y6 in
  let y8 := J01 * J22 in
  let y9 := J10 * y8 in
  let y10 := J02 * J11 in
  let y11 := J20 * y10 in
  match rdiv (1) ((y1 - y11 + y3 + y5 - y7 - y9)) with None => None | Some y12 =>
  let y13 := J00 * f2 in
  let y14 := J20 * f1 in
  let y15 := J10 * f0 in
  let y16 := J00 * f1 in
  let y17 := J10 * f2 in
  let y18 := J20 * f0 in
  let xin0_tmp := y12 * (-f0 * y0 + f0 * y6 - f1 * y4 + f1 * y8 + f2 * y10 - f2 * y2 + xi0 * y1 - xi0 * y11 + xi0 * y3 + xi0 * y5 - xi0 * y7 - xi0 * y9) in
  let xin1_tmp := y12 * (J02 * y14 - J02 * y17 + J12 * y13 - J12 * y18 + J22 * y15 - J22 * y16 + xi1 * y1 - xi1 * y11 + xi1 * y3 + xi1 * y5 - xi1 * y7 - xi1 * y9) in
  let xin2_tmp := y12 * (-J01 * y14 + J01 * y17 - J11 * y13 + J11 * y18 - J21 * y15 + J21 * y16 + xi2 * y1 - xi2 * y11 + xi2 * y3 + xi2 * y5 - xi2 * y7 - xi2 * y9) in
  Some (xin0_tmp, xin1_tmp, xin2_tmp) end end end.

(** include/nektar_interface/particle_cell_mapping/generated_linear/pyramid.hpp 214-241: newton_f_linear_3d *)
Definition pyr_f (xi0 xi1 xi2 v00 v01 v02 v10 v11 v12 v20 v21 v22 v30 v31 v32 v40 v41 v42 phys0 phys1 phys2 : R) : option (R * R * R) :=
  let x0 := xi2 + 1 in
  let x1 := xi0 + 1 in
  let x2 := xi1 + 1 in
  let x3 := xi2 - 1 in
  match rdiv (1) (x3) with None => None | Some x4 =>
  let x5 := x2 * x4 in
  let x6 := (1/2) * x1 * x5 in
  let x7 := x5 + 1 in
  let x8 := x1 * x4 + 1 in
  let x9 := (1/2) * x3 * x7 * x8 in
  let f0_tmp := -phys0 - v00 * x9 + (1/2) * v10 * x1 * x7 - v20 * x6 + (1/2) * v30 * x2 * x8 + (1/2) * v40 * x0 in
  let f1_tmp := -phys1 - v01 * x9 + (1/2) * v11 * x1 * x7 - v21 * x6 + (1/2) * v31 * x2 * x8 + (1/2) * v41 * x0 in
  let f2_tmp := -phys2 - v02 * x9 + (1/2) * v12 * x1 * x7 - v22 * x6 + (1/2) * v32 * x2 * x8 + (1/2) * v42 * x0 in
  Some (f0_tmp, f1_tmp, f2_tmp) end.

(** include/nektar_interface/particle_cell_mapping/generated_linear/quadrilateralembed3d.hpp 78-136: newton_step_linear_2d *)
Definition quademb_step (xi0 xi1 xi2 v00 v01 v02 v10 v11 v12 v20 v21 v22 v30 v31 v32 v40 v41 v42 phys0 phys1 phys2 f0 f1 f2 : R) : option (R * R * R) :=
  let x0 := xi1 - 1 in
  let x1 := xi1 + 1 in
  let x2 := xi0 - 1 in
  let x3 := xi0 + 1 in
  let J00 := (1/4) * v00 * x0 - (1/4) * v10 * x0 + (1/4) * v20 * x1 - (1/4) * v30 * x1 in
  let J01 := (1/4) * v00 * x2 - (1/4) * v10 * x3 + (1/4) * v20 * x3 - (1/4) * v30 * x2 in
  let J02 := v40 in
  let J10 := (1/4) * v01 * x0 - (1/4) * v11 * x0 + (1/4) * v21 * x1 - (1/4) * v31 * x1 in
  let J11 := (1/4) * v01 * x2 - (1/4) * v11 * x3 + (1/4) * v21 * x3 - (1/4) * v31 * x2 in
  let J12 := v41 in
  let J20 := (1/4) * v02 * x0 - (1/4) * v12 * x0 + (1/4) * v22 * x1 - (1/4) * v32 * x1 in
  let J21 := (1/4) * v02 * x2 - (1/4) * v12 * x3 + (1/4) * v22 * x3 - (1/4) * v32 * x2 in
  let J22 := v42 in
  let y0 := J11 * J22 in
  let y1 := J00 * y0 in
  let y2 := J01 * J12 in
  let y3 := J20 * y2 in
  let y4 := J02 * J21 in
  let y5 := J10 * y4 in
  let y6 := J12 * J21 in
  let y7 := J00 * y6 in
  let y8 := J01 * J22 in
  let y9 := J10 * y8 in
  let y10 := J02 * J11 in
  let y11 := J20 * y10 in
  match rdiv (1) ((y1 - y11 + y3 + y5 - y7 - y9)) with None => None | Some y12 =>
  let y13 := J00 * f2 in
  let y14 := J20 * f1 in
  let y15 := J10 * f0 in
  let y16 := J00 * f1 in
  let y17 := J10 * f2 in
  let y18 := J20 * f0 in
  let xin0_tmp := y12 * (-f0 * y0 + f0 * y6 - f1 * y4 + f1 * y8 + f2 * y10 - f2 * y2 + xi0 * y1 - xi0 * y11 + xi0 * y3 + xi0 * y5 - xi0 * y7 - xi0 * y9) in
  let xin1_tmp := y12 * (J02 * y14 - J02 * y17 + J12 * y13 - J12 * y18 + J22 * y15 - J22 * y16 + xi1 * y1 - xi1 * y11 + xi1 * y3 + xi1 * y5 - xi1 * y7 - xi1 * y9) in
  let xin2_tmp := y12 * (-J01 * y14 + J01 * y17 - J11 * y13 + J11 * y18 - J21 * y15 + J21 * y16 + xi2 * y1 - xi2 * y11 + xi2 * y3 + xi2 * y5 - xi2 * y7 - xi2 * y9) in
  Some (xin0_tmp, xin1_tmp, xin2_tmp) end.

(** include/nektar_interface/particle_cell_mapping/generated_linear/quadrilateralembed3d.hpp 180-203: newton_f_linear_2d *)
Definition quademb_f (xi0 xi1 xi2 v00 v01 v02 v10 v11 v12 v20 v21 v22 v30 v31 v32 v40 v41 v42 phys0 phys1 phys2 : R) : option (R * R * R) :=
  let x0 := xi0 - 1 in
  let x1 := xi1 - 1 in
  let x2 := xi0 + 1 in
  let x3 := (1/4) * x1 * x2 in
  let x4 := xi1 + 1 in
  let x5 := (1/4) * x0 * x4 in
  let f0_tmp := -phys0 + (1/4) * v00 * x0 * x1 - v10 * x3 + (1/4) * v20 * x2 * x4 - v30 * x5 + v40 * xi2 in
  let f1_tmp := -phys1 + (1/4) * v01 * x0 * x1 - v11 * x3 + (1/4) * v21 * x2 * x4 - v31 * x5 + v41 * xi2 in
  let f2_tmp := -phys2 + (1/4) * v02 * x0 * x1 - v12 * x3 + (1/4) * v22 * x2 * x4 - v32 * x5 + v42 * xi2 in
  Some (f0_tmp, f1_tmp, f2_tmp).

