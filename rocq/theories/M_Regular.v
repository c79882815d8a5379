(** Model of the regular (affine) element mappers and of the construction of the 2D / 3D mapping pipelines:
    src/nektar_interface/particle_cell_mapping/{map_particles_2d_regular,map_particles_3d_regular,map_particles_2d,
    map_particles_3d}.cpp, include/nektar_interface/particle_cell_mapping/{map_particles_2d_regular,
    map_particles_3d_regular,particle_cell_mapping_common}.hpp. [double] is R. *)
From Verif Require Export M_RealBase M_Grid M_Coord M_NewtonMap M_NewtonBind.
From Verif Require Import M_Util.
From Coq Require Import String List.
Import ListNotations.
Open Scope R_scope.

(** MAPPING_CROSS_PRODUCT_3D, MAPPING_DOT_PRODUCT_3D (particle_cell_mapping_common.hpp 23-33); sycl::cross, sycl::dot *)
Definition vcross (a b : pt3) : pt3 :=
  let '(a1, a2, a3) := a in let '(b1, b2, b3) := b in
  (a2 * b3 - a3 * b2, a3 * b1 - a1 * b3, a1 * b2 - a2 * b1).
Definition vdot (a b : pt3) : R :=
  let '(a1, a2, a3) := a in let '(b1, b2, b3) := b in a1 * b1 + a2 * b2 + a3 * b3.
Definition vsub (a b : pt3) : pt3 :=
  let '(a1, a2, a3) := a in let '(b1, b2, b3) := b in (a1 - b1, a2 - b2, a3 - b3).

(** write_vertices_2d, map_particles_2d_regular.hpp 53-76: index of the third vertex. None: unknown shape, assertion. *)
Definition last_point_index (shape : Z) : option nat :=
  if Z.eqb shape eTriangle then Some 2%nat else if Z.eqb shape eQuadrilateral then Some 3%nat else None.
Definition vertex2 (g : mgeom) (i : nat) : pt3 := (g_verts g i 0%nat, g_verts g i 1%nat, 0).
(** 199-232 (kernel) and particle_cell_mapping_common.hpp 72-105 (get_local_coords_2d): the same expressions; the third
    component is 0 in both. None: division by zero; the NaN or inf obtained fails every comparison of 253-254. *)
Definition regular_xi_2d (v0 v1 v2 r : pt3) : option pt2 :=
  let er := vsub r v0 in let e10 := vsub v1 v0 in let e20 := vsub v2 v0 in
  let norm := vcross e10 e20 in
  let orth1 := vcross norm e10 in
  let orth2 := vcross norm e20 in
  do scale0 <- rdiv (vdot er orth2) (vdot e10 orth2);
  do scale1 <- rdiv (vdot er orth1) (vdot e20 orth1);
  Some (2 * scale0 - 1, 2 * scale1 - 1).
(** 236-251 (and common.hpp 107-124) *)
Definition regular_eta_2d (shape : Z) (xi : pt2) : option pt2 :=
  let '(xi0, xi1) := xi in
  if Z.eqb shape eTriangle then do q <- rdiv (2 * (1 + xi0)) (guard (1 - xi1)); Some (q - 1, xi1) else Some (xi0, xi1).
(** 192-263: one candidate *)
Definition try_regular_2d (tol : R) (g : mgeom) (p : pt3) : option pt3 :=
  do l <- last_point_index (g_shape g);
  do xi <- regular_xi_2d (vertex2 g 0) (vertex2 g 1) (vertex2 g l) (fst (fst p), snd (fst p), 0);
  do eta <- regular_eta_2d (g_shape g) xi;
  let '(eta0, eta1) := eta in
  if Rle_bool (-1 - tol) eta0 && Rle_bool eta0 (1 + tol) && Rle_bool (-1 - tol) eta1 && Rle_bool eta1 (1 + tol)
  then Some (fst xi, snd xi, 0) else None.
(** std::max(dist, (eta < -1) ? -1 - eta : 0), then (eta > 1) ? eta - 1 : 0 *)
Definition excess_lo (eta : R) : R := if Rlt_bool eta (-1) then -1 - eta else 0.
Definition excess_hi (eta : R) : R := if Rlt_bool 1 eta then eta - 1 else 0.
Definition std_max (a b : R) : R := if Rlt_bool a b then b else a.
Definition inside1 (eta : R) : bool := Rle_bool eta 1 && Rle_bool (-1) eta.
(** get_local_coords_2d 45-137 and contains_point_2d 150-159 (regular branch): host version *)
Definition host_dist_2d (eta0 eta1 : R) : R :=
  if inside1 eta0 && inside1 eta1 then 0
  else std_max (std_max (std_max (excess_lo eta0) (excess_hi eta0)) (excess_lo eta1)) (excess_hi eta1).
Definition contains_point_2d (tol : R) (g : mgeom) (p : pt3) : option pt3 :=
  do l <- last_point_index (g_shape g);
  do xi <- regular_xi_2d (vertex2 g 0) (vertex2 g 1) (vertex2 g l) (fst (fst p), snd (fst p), 0);
  do eta <- regular_eta_2d (g_shape g) xi;
  if Rle_bool (host_dist_2d (fst eta) (snd eta)) tol then Some (fst xi, snd xi, 0) else None.

(** write_vertices_3d, map_particles_3d_regular.hpp 51-78 *)
Definition vertex_indices_3d (shape : Z) : option (nat * nat * nat) :=
  if Z.eqb shape eHexahedron || Z.eqb shape ePrism || Z.eqb shape ePyramid then Some (1, 3, 4)%nat
  else if Z.eqb shape eTetrahedron then Some (1, 2, 3)%nat else None.
Definition vertex3 (g : mgeom) (i : nat) : pt3 := (g_verts g i 0%nat, g_verts g i 1%nat, g_verts g i 2%nat).
(** map_particles_3d_regular.cpp 251-263. Simplification: for a degenerate element (zero volume) the code goes on with
    inf / NaN and may accept (NaN passes 282-294 with dist = 0); here None, the candidate is rejected. *)
Definition regular_xi_3d (v0 v1 v2 v3 r : pt3) : option pt3 :=
  let er0 := vsub r v0 in let e10 := vsub v1 v0 in let e20 := vsub v2 v0 in let e30 := vsub v3 v0 in
  let cp1020 := vcross e10 e20 in
  let cp2030 := vcross e20 e30 in
  let cp3010 := vcross e30 e10 in
  do iV <- rdiv 2 (vdot e30 cp1020);
  Some (vdot er0 cp2030 * iV - 1, vdot er0 cp3010 * iV - 1, vdot er0 cp1020 * iV - 1).
(** 278-294 *)
Definition dist_3d (eta : pt3) : R :=
  let '(eta0, eta1, eta2) := eta in
  if inside1 eta0 && inside1 eta1 && inside1 eta2 then 0
  else std_max (std_max (std_max (std_max (std_max (excess_lo eta0) (excess_hi eta0)) (excess_lo eta1)) (excess_hi eta1))
         (excess_lo eta2)) (excess_hi eta2).
(** 239-304: one candidate *)
Definition try_regular_3d (tol : R) (g : mgeom) (p : pt3) : option pt3 :=
  do ix <- vertex_indices_3d (g_shape g);
  let '(i1, i2, i3) := ix in
  do xi <- regular_xi_3d (vertex3 g 0) (vertex3 g i1) (vertex3 g i2) (vertex3 g i3) p;
  do eta <- generic_to_collapsed_3d (g_shape g) xi;
  if Rle_bool (dist_3d eta) tol then Some xi else None.

(** The constructors MapParticles2DRegular 5-113, MapParticles3DRegular 4-108. [geoms]: local then remote geometries. *)
Definition regular_tol_2d (c : store) : R := get_or (get_real c "MapParticles2DRegular/tol") (/ 10 ^ 12).
Definition regular_tol_3d (c : store) : R := get_or (get_real c "MapParticles3DRegular/tol") 0.
Record regular_mapper := { rm_ndim : nat; rm_tol : R; rm_num_geoms : nat; rm_lookup : option lookup;
  rm_tables : list (option mgeom) }.
Definition known_shape (ndim : nat) (shape : Z) : bool :=
  if Nat.eqb ndim 2 then match last_point_index shape with Some _ => true | None => false end
  else match vertex_indices_3d shape with Some _ => true | None => false end.
Definition make_regular_mapper (ndim : nat) (tol : R) (geoms : list mgeom) : option regular_mapper :=
  let regs := filter g_regular geoms in
  match regs with
  | [] => Some {| rm_ndim := ndim; rm_tol := tol; rm_num_geoms := 0; rm_lookup := None; rm_tables := [] |}
  | _ =>
      if forallb (fun g => known_shape ndim (g_shape g)) regs then
        do lk <- make_lookup ndim (map g_box regs);
        do t <- fill_tables regs regs (repeat None (length regs));
        Some {| rm_ndim := ndim; rm_tol := tol; rm_num_geoms := length regs; rm_lookup := Some lk; rm_tables := t |}
      else None
  end.
(** map_particles_2d_regular.cpp 115-275, map_particles_3d_regular.cpp 110-320, one particle *)
Definition regular_try (m : regular_mapper) : mgeom -> pt3 -> option pt3 :=
  if Nat.eqb (rm_ndim m) 2 then try_regular_2d (rm_tol m) else try_regular_3d (rm_tol m).
Definition regular_kernel (m : regular_mapper) (q : particle) : option particle :=
  if Nat.eqb (rm_num_geoms m) 0 then Some q
  else coarse_kernel (rm_ndim m) (rm_lookup m) (rm_tables m) (regular_try m) q.

(** * The pipelines' constructors. [geoms] is every element known to this rank: the locally owned ones and the remote
    (halo) ones. *)
(** MapParticles2D::MapParticles2D, map_particles_2d.cpp 12-57 *)
Definition newton_geoms_2d (geoms : list mgeom) : list mgeom :=
  filter (fun g => negb (g_regular g) && Z.eqb (g_shape g) eQuadrilateral) geoms.
Definition count_regular (geoms : list mgeom) : nat := length (filter g_regular geoms).
Definition count_deformed (geoms : list mgeom) : nat := length (filter (fun g => negb (g_regular g)) geoms).
Record pipeline2d := { p2_regular : option (particle -> option particle); p2_newton : option newton_mapper }.
Definition make_pipeline2d (conf : store) (geoms : list mgeom) : option pipeline2d :=
  do nm <- (if Nat.ltb 0 (count_deformed geoms)
            then do m <- make_newton_mapper 2 conf (newton_geoms_2d geoms); Some (Some m) else Some None);
  do rm <- make_regular_mapper 2 (regular_tol_2d conf) geoms;
  Some {| p2_regular := if Nat.ltb 0 (count_regular geoms) then Some (regular_kernel rm) else None; p2_newton := nm |}.
Definition map_particles_2d (conf : store) (geoms : list mgeom) (grp : list (list particle)) (map_cell : Z) : mresult :=
  match make_pipeline2d conf geoms with
  | None => Bad
  | Some p => map2d (p2_regular p) (p2_newton p) grp map_cell
  end.

(** GeometryContainer3D::classify (geometry_container_3d.hpp 30-41), GeometryTypes3D::classify (geometry_types_3d.hpp
    25-40): (category, shape). *)
Definition linear_geoms (all_generic : bool) (geoms : list mgeom) (shape : Z) : list mgeom :=
  if all_generic then [] else filter (fun g => negb (g_regular g) && g_linear g && Z.eqb (g_shape g) shape) geoms.
(** deformed_non_linear: map_particles_3d.cpp 33-49 and 86-113; the order of the local ones is by id in the code (only ties in
    the lookup order depend on it). *)
Definition nonlinear_geoms (all_generic : bool) (geoms : list mgeom) : list mgeom :=
  let sel := filter (fun g => all_generic || (negb (g_regular g) && negb (g_linear g))) geoms in
  flat_map (fun s => filter (fun g => Z.eqb (g_shape g) s) sel) [eTetrahedron; ePyramid; ePrism; eHexahedron].
(** A mapper is created iff its container is not empty, 52-113. *)
Definition make_some (ndim : nat) (conf : store) (geoms : list mgeom) : option (list newton_mapper) :=
  match geoms with [] => Some [] | _ => do m <- make_newton_mapper ndim conf geoms; Some [m] end.
Record pipeline3d := { p3_regular : option (particle -> option particle); p3_newton : list newton_mapper }.
Definition all_generic_newton (conf : store) : bool :=
  negb (Z.eqb (get_or (get_int conf "MapParticles3D/all_generic_newton") 0%Z) 0%Z).
Definition make_pipeline3d (conf : store) (geoms : list mgeom) : option pipeline3d :=
  let ag := all_generic_newton conf in
  do rm <- (if negb ag && Nat.ltb 0 (count_regular geoms)
            then do m <- make_regular_mapper 3 (regular_tol_3d conf) geoms; Some (Some (regular_kernel m)) else Some None);
  do tet <- make_some 3 conf (linear_geoms ag geoms eTetrahedron);
  do prism <- make_some 3 conf (linear_geoms ag geoms ePrism);
  do hex <- make_some 3 conf (linear_geoms ag geoms eHexahedron);
  do pyr <- make_some 3 conf (linear_geoms ag geoms ePyramid);
  do nl <- make_some 3 conf (nonlinear_geoms ag geoms);
  Some {| p3_regular := rm; p3_newton := tet ++ prism ++ hex ++ pyr ++ nl |}.
Definition map_particles_3d (conf : store) (geoms : list mgeom) (host : particle -> particle)
    (grp : list (list particle)) (map_cell : Z) : mresult :=
  match make_pipeline3d conf geoms with
  | None => Bad
  | Some p => map3d (p3_regular p) (p3_newton p) host grp map_cell
  end.
