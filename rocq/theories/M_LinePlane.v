(** Boundary elements as planes: src/nektar_interface/composite_interaction/composite_utility.cpp,
    include/nektar_interface/composite_interaction/line_plane_intersection.hpp and
    line_line_intersection.hpp. Exact reals. A linear element is the list of its vertices. *)
From Verif Require Export M_RealBase.

Record v3 := mkV3 { vx : R; vy : R; vz : R }.
Definition vsub (a b : v3) : v3 := mkV3 (vx a - vx b) (vy a - vy b) (vz a - vz b).
(** MAPPING_DOT_PRODUCT_3D, MAPPING_CROSS_PRODUCT_3D: special_functions.hpp 4-14 (the KERNEL_
    macros of NESO-Particles are the same expressions) *)
Definition dot (a b : v3) : R := vx a * vx b + vy a * vy b + vz a * vz b.
Definition cross (a b : v3) : v3 :=
  mkV3 (vy a * vz b - vz a * vy b) (vz a * vx b - vx a * vz b) (vx a * vy b - vy a * vx b).

(** get_normal_vector (Geometry1D), composite_utility.cpp 5-36, and the constructor of
    LineLineIntersection, line_line_intersection.hpp 39-66. [curved]: GetCurve() != nullptr.
    None: failed assertion, or a degenerate segment (1/sqrt(0): NaN components). *)
Definition normal_1d (curved : bool) (a b : R * R) : option (R * R) :=
  if curved then None else
  let dx := fst b - fst a in
  let dy := snd b - snd a in
  let n0t := - dy in
  let n1t := dx in
  if Req_bool (n0t * n0t + n1t * n1t) 0 then None else
  let l := 1 / sqrt (n0t * n0t + n1t * n1t) in
  Some (n0t * l, n1t * l).

(** get_normal_vector (Geometry2D), composite_utility.cpp 38-83. None: an assertion fails (a zero
    cross product gives components that are not finite). *)
Definition normal_2d (curved : bool) (verts : list v3) : option v3 :=
  if curved then None else
  match verts with
  | v0 :: v1 :: _ =>
      let v2 := last verts v0 in
      let nt := cross (vsub v1 v0) (vsub v2 v0) in
      if Req_bool (dot nt nt) 0 then None else
      let s := 1 / sqrt (dot nt nt) in
      Some (mkV3 (vx nt * s) (vy nt * s) (vz nt * s))
  | _ => None
  end.
(** get_vertex_average, composite_utility.cpp 85-106 (coordim 3) *)
Definition vertex_average (verts : list v3) : v3 :=
  let s := fold_left (fun s v => mkV3 (vx s + vx v) (vy s + vy v) (vz s + vz v)) verts (mkV3 0 0 0) in
  let n := INR (length verts) in
  mkV3 (vx s / n) (vy s / n) (vz s / n).

(** LinePlaneIntersection: line_plane_intersection.hpp 20-44 *)
Record lpi := mkLpi { lp_point : v3; lp_normal : v3; lp_radius2 : R }.
Definition dist2_centre (c r : v3) : R :=
  let d0 := vx c - vx r in let d1 := vy c - vy r in let d2 := vz c - vz r in d0 * d0 + d1 * d1 + d2 * d2.
(** constructor 52-78 *)
Definition lpi_make (curved : bool) (verts : list v3) : option lpi :=
  match normal_2d curved verts with
  | None => None
  | Some n =>
      let c := vertex_average verts in
      Some (mkLpi c n (fold_left (fun r v => fmax r (dist2_centre c v)) verts 0))
  end.
(** point_near_to_geom 90-94 *)
Definition point_near (l : lpi) (r : v3) : bool := Rle_bool (dist2_centre (lp_point l) r) (lp_radius2 l).
(** line_segment_intersection 112-146 *)
Definition plane_hit (l : lpi) (p0 p1 : v3) : bool * v3 :=
  let dir := vsub p1 p0 in
  let l_dot_n := dot dir (lp_normal l) in
  let ppmpl_dot_n := dot (vsub (lp_point l) p0) (lp_normal l) in
  let d := if Req_bool l_dot_n 0 then 0 else ppmpl_dot_n / l_dot_n in
  let i := mkV3 (vx p0 + d * vx dir) (vy p0 + d * vy dir) (vz p0 + d * vz dir) in
  (if (Req_bool l_dot_n 0 && negb (Req_bool ppmpl_dot_n 0)) || Rlt_bool d 0 || Rlt_bool 1 d then false else true, i).
