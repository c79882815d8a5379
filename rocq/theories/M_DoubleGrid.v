(** The Cartesian overlay of the particle mapping in double precision: DeviceCartesianMesh
    (include/nektar_interface/utility_mesh_cartesian.hpp 49-160), the cells visited and the overlap test of
    CoarseLookupMap::add_geom_to_map (include/nektar_interface/particle_cell_mapping/coarse_lookup_map.hpp 40-78), the extents of
    its constructor (103-133) and the cell a mapping kernel computes for a particle
    (map_particles_newton.hpp 285-310; the same text in map_particles_{2,3}d_regular.cpp).
    The arithmetic is that of M_Double. The numbers of cells per dimension (exp, log) are an argument. The record of a cell's
    candidates and its sorting are in M_Grid; they do not depend on the arithmetic. *)
From Coq Require Import Reals ZArith List Bool.
From Flocq Require Import Core.
From Verif Require Import M_RealBase M_Grid M_Double.
Import ListNotations.
Open Scope R_scope.

(** one dimension of the mesh *)
Record ddim := mkDim { dd_origin : R; dd_extent : R; dd_count : Z; dd_width : R; dd_inv : R }.
(** constructor 71-82; [None]: failed assertion, division by a zero width, overflow *)
Definition make_dim_d (origin extent : R) (count : Z) : option ddim :=
  check (Rlt_bool 0 extent) (check (Z.ltb 0 count)
  (do w <- fl (extent / IZR count);
   check (negb (Req_bool w 0))
   (do i <- fl (1 / w);
    Some (mkDim origin extent count w i)))).
(** the literal 1.0e-8 *)
Definition TOL_d : R := rnd (/ 10 ^ 8).
(** the assertions 99-103 *)
Definition in_bounds_d (m : ddim) (point : R) : option bool :=
  do lower <- fl (dd_origin m - TOL_d);
  do s <- fl (dd_origin m + dd_extent m);
  do upper <- fl (s + TOL_d);
  Some (Rle_bool lower point && Rle_bool point upper)%bool.
(** 106-114, and the kernels; int is a 32 bit integer *)
Definition cell_d (m : ddim) (point : R) : option Z :=
  do shifted <- fl (point - dd_origin m);
  do cell_float <- fl (shifted * dd_inv m);
  do cell <- to_int 32 cell_float;
  Some (clamp_cell cell (dd_count m)).
(** get_cell_in_dimension 98-116 *)
Definition get_cell_d (m : ddim) (point : R) : option Z :=
  do ok <- in_bounds_d m point; check ok (cell_d m point).
(** get_bounding_box 149-157 *)
Definition cell_box_d (fused : bool) (m : ddim) (cell : Z) : option (R * R) :=
  check (Z.leb 0 cell) (check (Z.ltb cell (dd_count m))
  (do lb <- mul_add fused (IZR cell) (dd_width m) (dd_origin m);
   do ub <- mul_add fused (IZR (cell + 1)) (dd_width m) (dd_origin m);
   Some (lb, ub))).
(** bounding_box_intersection.hpp 35-47 *)
Definition interval_overlap_d (la ua lb ub : R) : option R :=
  if Rle_bool ua lb then Some 0
  else if Rle_bool ub la then Some 0
  else fl (fmin ub ua - fmax lb la).
(** 49-53 *)
Fixpoint overlap_loop_d (a b : list (R * R)) (area : R) : option R :=
  match a, b with
  | (la, ua) :: a', (lb, ub) :: b' =>
      do o <- interval_overlap_d la ua lb ub; do area' <- fl (area * o); overlap_loop_d a' b' area'
  | _, _ => Some area
  end.
Definition map2M {A B C} (f : A -> B -> option C) : list A -> list B -> option (list C) :=
  fix go l l' := match l, l' with
                 | a :: r, b :: r' => do c <- f a b; do cs <- go r r'; Some (c :: cs)
                 | _, _ => Some []
                 end.
(** coarse_lookup_map.hpp 47-55: first and last cell per dimension of a geometry's bounding box [gb]; then the loops 61-66 *)
Definition geom_tuples_d (m : list ddim) (gb : list (R * R)) : option (list (list Z)) :=
  do starts <- map2M (fun d lu => get_cell_d d (fst lu)) m gb;
  do ends <- map2M (fun d lu => get_cell_d d (snd lu)) m gb;
  Some (cell_tuples starts ends).
(** 67-74: is the geometry entered in the cell's list *)
Definition entered_d (fused : bool) (m : list ddim) (gb : list (R * R)) (tuple : list Z) : option bool :=
  do cb <- map2M (cell_box_d fused) m tuple;
  do overlap_estimate <- overlap_loop_d gb cb 1;
  Some (Rlt_bool 0 overlap_estimate).
(** all cells whose list gets the geometry *)
Definition entries_d (fused : bool) (m : list ddim) (gb : list (R * R)) : option (list (list Z)) :=
  do tuples <- geom_tuples_d m gb;
  do flags <- mapM (entered_d fused m gb) tuples;
  Some (map fst (filter snd (combine tuples flags))).
(** the cell of a particle in the kernels *)
Definition particle_tuple_d (m : list ddim) (p : list R) : option (list Z) := map2M cell_d m p.
(** 113-133 and 163-175: origin and extent of the mesh around all geometries ([hull]: their common bounding box) *)
Definition make_mesh_d (hull : list (R * R)) (counts : list Z) : option (list ddim) :=
  map2M (fun lu n => do e <- extent_d (fst lu) (snd lu); make_dim_d (fst lu) e n) hull counts.
