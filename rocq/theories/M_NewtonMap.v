(** Model of the Newton mapping types: include/nektar_interface/particle_cell_mapping/newton_{quad,tet,prism,hex,pyr,
    quad_embed_3d,triangle_embed_3d}.hpp, newton_relative_exit_tolerances.hpp. [double] is R; None = a non-finite
    value was produced. [c i k] is coordinates[i][k] of DataDevice. *)
From Verif Require Export M_RealBase M_Coord M_NewtonGen.

Notation vtx := (nat -> nat -> R) (only parsing).

(** coordinates[i][k] *)
Definition co (c : vtx) (i k : nat) : R := c i k.

(** newton_relative_exit_tolerances.hpp 11-42, scaling_dir. The scalings are taken finite and are arguments:
    create_newton_relative_exit_tolerances (51-70) divides by max(|bbox lower|,|bbox upper|) * mean Jacobian, which
    can be zero (scaling inf) or negative; see DESIGN.md. sycl::fmax on finite values is [fmax]. *)
Definition get_relative_error_2d (s : pt3) (f0 f1 : R) : R :=
  let '(s0, s1, _) := s in
  let err0 := Rabs f0 * s0 in let err1 := Rabs f1 * s1 in fmax err0 err1.
Definition get_relative_error_3d (s : pt3) (f0 f1 f2 : R) : R :=
  let '(s0, s1, s2) := s in
  let err0 := Rabs f0 * s0 in let err1 := Rabs f1 * s1 in let err2 := Rabs f2 * s2 in fmax (fmax err0 err1) err2.

(** The interface MappingNewtonIterationBase (mapping_newton_iteration_base.hpp 147-298) after write_data: the
    residual takes the values f0,f1,f2 held before the call, because an implementation may leave them unwritten. *)
Record newton_type := {
  nt_step : pt3 -> pt3 -> pt3 -> option pt3;          (* xi, phys, f |-> xin *)
  nt_resid : pt3 -> pt3 -> pt3 -> option (R * pt3);   (* xi, phys, f on entry |-> residual, f on exit *)
  nt_init : pt3 -> option pt3;                        (* phys |-> xi *)
  nt_coll : pt3 -> option pt3;                        (* xi |-> eta *)
  nt_loc : pt3 -> pt3 }.                              (* eta |-> xi *)

(** newton_quad.hpp 59-133 (MappingQuadLinear2D) *)
Definition quad_type (c : vtx) (s : pt3) : newton_type := {|
  nt_step := fun xi phys f => let '(xi0, xi1, xi2) := xi in let '(phys0, phys1, phys2) := phys in
    let '(f0, f1, f2) := f in
    do r <- quad_step xi0 xi1 (co c 0 0) (co c 0 1) (co c 1 0) (co c 1 1) (co c 2 0) (co c 2 1) (co c 3 0) (co c 3 1) phys0 phys1 f0 f1;
    let '(a, b) := r in Some (a, b, 0);
  nt_resid := fun xi phys f => let '(xi0, xi1, xi2) := xi in let '(phys0, phys1, phys2) := phys in
    do r <- quad_f xi0 xi1 (co c 0 0) (co c 0 1) (co c 1 0) (co c 1 1) (co c 2 0) (co c 2 1) (co c 3 0) (co c 3 1) phys0 phys1;
    let '(f0, f1) := r in Some (get_relative_error_2d s f0 f1, (f0, f1, 0));
  nt_init := fun _ => Some (0, 0, 0);
  nt_coll := fun xi => let '(xi0, xi1, _) := xi in Some (xi0, xi1, 0);
  nt_loc := fun eta => let '(eta0, eta1, _) := eta in (eta0, eta1, 0) |}.

(** newton_tet.hpp 45-109 (MappingTetLinear3D) *)
Definition tet_type (c : vtx) (s : pt3) : newton_type := {|
  nt_step := fun xi phys f => let '(xi0, xi1, xi2) := xi in let '(phys0, phys1, phys2) := phys in
    let '(f0, f1, f2) := f in
    tet_step xi0 xi1 xi2 (co c 0 0) (co c 0 1) (co c 0 2) (co c 1 0) (co c 1 1) (co c 1 2) (co c 2 0) (co c 2 1) (co c 2 2)
      (co c 3 0) (co c 3 1) (co c 3 2) phys0 phys1 phys2 f0 f1 f2;
  nt_resid := fun xi phys f => let '(xi0, xi1, xi2) := xi in let '(phys0, phys1, phys2) := phys in
    do r <- tet_f xi0 xi1 xi2 (co c 0 0) (co c 0 1) (co c 0 2) (co c 1 0) (co c 1 1) (co c 1 2) (co c 2 0) (co c 2 1) (co c 2 2)
      (co c 3 0) (co c 3 1) (co c 3 2) phys0 phys1 phys2;
    let '(f0, f1, f2) := r in Some (get_relative_error_3d s f0 f1 f2, (f0, f1, f2));
  nt_init := fun _ => Some (0, 0, 0);
  nt_coll := tet_to_collapsed;
  nt_loc := tet_to_loc |}.

(** newton_prism.hpp 45-114 (MappingPrismLinear3D) *)
Definition prism_type (c : vtx) (s : pt3) : newton_type := {|
  nt_step := fun xi phys f => let '(xi0, xi1, xi2) := xi in let '(phys0, phys1, phys2) := phys in
    let '(f0, f1, f2) := f in
    prism_step xi0 xi1 xi2 (co c 0 0) (co c 0 1) (co c 0 2) (co c 1 0) (co c 1 1) (co c 1 2) (co c 2 0) (co c 2 1) (co c 2 2)
      (co c 3 0) (co c 3 1) (co c 3 2) (co c 4 0) (co c 4 1) (co c 4 2) (co c 5 0) (co c 5 1) (co c 5 2) phys0 phys1 phys2 f0 f1 f2;
  nt_resid := fun xi phys f => let '(xi0, xi1, xi2) := xi in let '(phys0, phys1, phys2) := phys in
    do r <- prism_f xi0 xi1 xi2 (co c 0 0) (co c 0 1) (co c 0 2) (co c 1 0) (co c 1 1) (co c 1 2) (co c 2 0) (co c 2 1) (co c 2 2)
      (co c 3 0) (co c 3 1) (co c 3 2) (co c 4 0) (co c 4 1) (co c 4 2) (co c 5 0) (co c 5 1) (co c 5 2) phys0 phys1 phys2;
    let '(f0, f1, f2) := r in Some (get_relative_error_3d s f0 f1 f2, (f0, f1, f2));
  nt_init := fun _ => Some (0, 0, 0);
  nt_coll := prism_to_collapsed;
  nt_loc := prism_to_loc |}.

(** newton_hex.hpp 53-130 (MappingHexLinear3D); only the Jacobian scaling is used *)
Definition hex_type (c : vtx) (jacobian_scaling : R) : newton_type := {|
  nt_step := fun xi phys f => let '(xi0, xi1, xi2) := xi in let '(phys0, phys1, phys2) := phys in
    let '(f0, f1, f2) := f in
    hex_step xi0 xi1 xi2 (co c 0 0) (co c 0 1) (co c 0 2) (co c 1 0) (co c 1 1) (co c 1 2) (co c 2 0) (co c 2 1) (co c 2 2)
      (co c 3 0) (co c 3 1) (co c 3 2) (co c 4 0) (co c 4 1) (co c 4 2) (co c 5 0) (co c 5 1) (co c 5 2) (co c 6 0) (co c 6 1) (co c 6 2)
      (co c 7 0) (co c 7 1) (co c 7 2) phys0 phys1 phys2 f0 f1 f2;
  nt_resid := fun xi phys f => let '(xi0, xi1, xi2) := xi in let '(phys0, phys1, phys2) := phys in
    do r <- hex_f xi0 xi1 xi2 (co c 0 0) (co c 0 1) (co c 0 2) (co c 1 0) (co c 1 1) (co c 1 2) (co c 2 0) (co c 2 1) (co c 2 2)
      (co c 3 0) (co c 3 1) (co c 3 2) (co c 4 0) (co c 4 1) (co c 4 2) (co c 5 0) (co c 5 1) (co c 5 2) (co c 6 0) (co c 6 1) (co c 6 2)
      (co c 7 0) (co c 7 1) (co c 7 2) phys0 phys1 phys2;
    let '(f0, f1, f2) := r in
    let norm2 := fmax (fmax (Rabs f0) (Rabs f1)) (Rabs f2) in
    let tol_scaling := jacobian_scaling in
    let scaled_norm2 := norm2 * tol_scaling in
    Some (scaled_norm2, (f0, f1, f2));
  nt_init := fun _ => Some (0, 0, 0);
  nt_coll := fun xi => Some xi;
  nt_loc := fun eta => eta |}.

(** newton_pyr.hpp: ABS(a - b) <= NekConstants::kNekZeroTol *)
Definition near (a b : R) : bool := Rle_bool (Rabs (a - b)) kNekZeroTol.
(** newton_pyr.hpp 46-154 (MappingPyrLinear3D) *)
Definition pyr_type (c : vtx) (s : pt3) : newton_type := {|
  nt_step := fun xi phys f => let '(xi0, xi1, xi2) := xi in let '(phys0, phys1, phys2) := phys in
    let '(f0, f1, f2) := f in
    let v40 := co c 4 0 in let v41 := co c 4 1 in let v42 := co c 4 2 in
    let vt := near v40 phys0 && near v41 phys1 && near v42 phys2 in
    if vt then Some (-1, -1, 1)
    else pyr_step xi0 xi1 xi2 (co c 0 0) (co c 0 1) (co c 0 2) (co c 1 0) (co c 1 1) (co c 1 2) (co c 2 0) (co c 2 1) (co c 2 2)
      (co c 3 0) (co c 3 1) (co c 3 2) (co c 4 0) (co c 4 1) (co c 4 2) phys0 phys1 phys2 f0 f1 f2;
  nt_resid := fun xi phys f => let '(xi0, xi1, xi2) := xi in let '(phys0, phys1, phys2) := phys in
    let v40 := co c 4 0 in let v41 := co c 4 1 in let v42 := co c 4 2 in
    let vt := near v40 phys0 && near v41 phys1 && near v42 phys2 in
    let xt := near xi0 (-1) && near xi1 (-1) && near xi2 1 in
    if vt && xt then Some (0, f)
    else
    do r <- pyr_f xi0 xi1 xi2 (co c 0 0) (co c 0 1) (co c 0 2) (co c 1 0) (co c 1 1) (co c 1 2) (co c 2 0) (co c 2 1) (co c 2 2)
      (co c 3 0) (co c 3 1) (co c 3 2) (co c 4 0) (co c 4 1) (co c 4 2) phys0 phys1 phys2;
    let '(f0, f1, f2) := r in Some (get_relative_error_3d s f0 f1 f2, (f0, f1, f2));
  nt_init := fun phys => let '(phys0, phys1, phys2) := phys in
    let v40 := co c 4 0 in let v41 := co c 4 1 in let v42 := co c 4 2 in
    let vt := near v40 phys0 && near v41 phys1 && near v42 phys2 in
    if vt then Some (-1, -1, 1) else Some (0, 0, 0);
  nt_coll := pyr_to_collapsed;
  nt_loc := pyr_to_loc |}.

(** MAPPING_CROSS_PRODUCT_3D, MAPPING_DOT_PRODUCT_3D: particle_cell_mapping_common.hpp 23-33 *)
Definition mcross (a b : pt3) : pt3 :=
  let '(a1, a2, a3) := a in let '(b1, b2, b3) := b in
  ((a2 * b3) - (a3 * b2), (a3 * b1) - (a1 * b3), (a1 * b2) - (a2 * b1)).
Definition mdot (a b : pt3) : R :=
  let '(a1, a2, a3) := a in let '(b1, b2, b3) := b in a1 * b1 + a2 * b2 + a3 * b3.

(** newton_quad_embed_3d.hpp 53-66: plane_normal = (v1 - v0) x (v3 - v0) (PointGeom::Sub, Mult). *)
Definition quademb_normal (c : vtx) : pt3 :=
  mcross (co c 1 0 - co c 0 0, co c 1 1 - co c 0 1, co c 1 2 - co c 0 2) (co c 3 0 - co c 0 0, co c 3 1 - co c 0 1, co c 3 2 - co c 0 2).
(** newton_quad_embed_3d.hpp 75-165 (MappingQuadLinear2DEmbed3D) *)
Definition quademb_type (c : vtx) (s : pt3) : newton_type := {|
  nt_step := fun xi phys f => let '(xi0, xi1, xi2) := xi in let '(phys0, phys1, phys2) := phys in
    let '(f0, f1, f2) := f in let '(c0, c1, c2) := quademb_normal c in
    quademb_step xi0 xi1 xi2 (co c 0 0) (co c 0 1) (co c 0 2) (co c 1 0) (co c 1 1) (co c 1 2) (co c 2 0) (co c 2 1) (co c 2 2)
      (co c 3 0) (co c 3 1) (co c 3 2) c0 c1 c2 phys0 phys1 phys2 f0 f1 f2;
  nt_resid := fun xi phys f => let '(xi0, xi1, xi2) := xi in let '(phys0, phys1, phys2) := phys in
    let '(c0, c1, c2) := quademb_normal c in
    do r <- quademb_f xi0 xi1 xi2 (co c 0 0) (co c 0 1) (co c 0 2) (co c 1 0) (co c 1 1) (co c 1 2) (co c 2 0) (co c 2 1) (co c 2 2)
      (co c 3 0) (co c 3 1) (co c 3 2) c0 c1 c2 phys0 phys1 phys2;
    let '(f0, f1, f2) := r in Some (get_relative_error_3d s f0 f1 f2, (f0, f1, f2));
  nt_init := fun _ => Some (0, 0, 0);
  nt_coll := fun xi => let '(xi0, xi1, _) := xi in Some (xi0, xi1, 0);
  nt_loc := fun eta => let '(eta0, eta1, _) := eta in (eta0, eta1, 0) |}.

(** newton_triangle_embed_3d.hpp 59-78: vertex_0 and the two edge vectors *)
Definition triemb_data (c : vtx) : pt3 * pt3 * pt3 :=
  ((co c 0 0, co c 0 1, co c 0 2), (co c 1 0 - co c 0 0, co c 1 1 - co c 0 1, co c 1 2 - co c 0 2),
   (co c 2 0 - co c 0 0, co c 2 1 - co c 0 1, co c 2 2 - co c 0 2)).
(** newton_triangle_embed_3d.hpp 128-165: set_initial_iteration_v *)
Definition triemb_init (c : vtx) (phys : pt3) : option pt3 :=
  let '(v0, e10, e20) := triemb_data c in
  let '(v00, v01, v02) := v0 in let '(phys0, phys1, phys2) := phys in
  let er := (phys0 - v00, phys1 - v01, phys2 - v02) in
  let norm := mcross e10 e20 in
  let orth1 := mcross norm e10 in
  let orth2 := mcross norm e20 in
  do scale0 <- rdiv (mdot er orth2) (mdot e10 orth2);
  let xi0 := 2 * scale0 - 1 in
  do scale1 <- rdiv (mdot er orth1) (mdot e20 orth1);
  let xi1 := 2 * scale1 - 1 in
  Some (xi0, xi1, 0).
(** newton_triangle_embed_3d.hpp 84-183 (MappingTriangleLinear2DEmbed3D) *)
Definition triemb_type (c : vtx) (s : pt3) : newton_type := {|
  nt_step := fun xi phys f => triemb_init c phys;
  nt_resid := fun xi phys f => let '(xi0, xi1, xi2) := xi in let '(phys0, phys1, phys2) := phys in
    let '(v0, e10, e20) := triemb_data c in
    let '(v00, v01, v02) := v0 in let '(e10_0, e10_1, e10_2) := e10 in let '(e20_0, e20_1, e20_2) := e20 in
    let x0 := (xi0 + 1) * (1/2) in
    let x1 := (xi1 + 1) * (1/2) in
    let tmp0 := v00 + x0 * e10_0 + x1 * e20_0 in
    let tmp1 := v01 + x0 * e10_1 + x1 * e20_1 in
    let tmp2 := v02 + x0 * e10_2 + x1 * e20_2 in
    let f0 := tmp0 - phys0 in let f1 := tmp1 - phys1 in let f2 := tmp2 - phys2 in
    Some (get_relative_error_3d s f0 f1 f2, (f0, f1, f2));
  nt_init := triemb_init c;
  nt_coll := fun xi => let '(xi0, xi1, _) := xi in
    do e <- tri_to_collapsed (xi0, xi1); let '(e0, e1) := e in Some (e0, e1, 0);
  nt_loc := fun eta => let '(eta0, eta1, _) := eta in let '(a, b) := tri_to_loc (eta0, eta1) in (a, b, 0) |}.

(** x_map_newton_kernel.hpp 35-49: XMapNewtonKernel::x and x_map_newton.hpp 119-163: XMapNewton::x — the residual
    with p = 0; the outputs start at 0. *)
Definition x_map (nt : newton_type) (xi : pt3) : option pt3 :=
  do r <- nt_resid nt xi (0, 0, 0) (0, 0, 0); Some (snd r).
