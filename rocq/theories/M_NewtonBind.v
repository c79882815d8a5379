(** Model of the Newton inversion and of the particle to cell mapping pipelines:
    include/nektar_interface/particle_cell_mapping/{x_map_newton_kernel,x_map_newton,map_particles_newton,
    newton_relative_exit_tolerances}.hpp, src/nektar_interface/particle_cell_mapping/{map_particles_2d,
    map_particles_3d,map_particles_host,map_particles_common}.cpp.
    [double] is R; None for a value = a non-finite value was produced. *)
From Verif Require Export M_RealBase M_Grid M_Coord M_NewtonMap.
From Verif Require Import M_Util.

(** newton_relative_exit_tolerances.hpp 57-69. [jac] are the Jacobian values at the points of the map, [lo], [hi]
    the bounding box in one direction. None: division by zero (the code gets inf). *)
Definition mean_jac (jac : list R) : R := fold_left Rplus jac 0 / INR (length jac).
Definition exit_scaling_jacobian (jac : list R) : option R :=
  do q <- rdiv 1 (mean_jac jac); Some (Rabs q).
Definition exit_scaling_dir (jac : list R) (lo hi : R) : option R :=
  rdiv 1 (fmax (Rabs lo) (Rabs hi) * mean_jac jac).

(** * XMapNewtonKernel::x_inverse (x_map_newton_kernel.hpp 71-127) *)
(** 120-121: diverged (a non-finite residual is the None case of the loop) *)
Definition over15 (xi : pt3) : bool :=
  let '(a, b, c) := xi in Rlt_bool 15 (Rabs a) || Rlt_bool 15 (Rabs b) || Rlt_bool 15 (Rabs c).
(** The loop 106-122 and the return 123-126: final xi and whether residual <= tol. A non-finite step or residual
    never satisfies residual <= tol afterwards (every generated residual uses every component of xi and a NaN or inf
    residual sets [diverged] or fails residual > tol): modelled as (None, false). *)
Fixpoint inverse_loop (nt : newton_type) (p : pt3) (tol : R) (fuel : nat)
    (xi : pt3) (residual : R) (f : pt3) (diverged : bool) : option pt3 * bool :=
  match fuel with
  | O => (Some xi, Rle_bool residual tol)
  | S k =>
      if Rlt_bool tol residual && negb diverged then
        match nt_step nt xi p f with
        | None => (None, false)
        | Some xin =>
            match nt_resid nt xin p f with
            | None => (None, false)
            | Some (r, f') => inverse_loop nt p tol k xin r f' (over15 xin)
            end
        end
      else (Some xi, Rle_bool residual tol)
  end.
Definition x_inverse_kernel (nt : newton_type) (p : pt3) (xi_in : pt3) (max_iterations : Z) (tol : R)
    (initial_override : bool) : option pt3 * bool :=
  match (if initial_override then Some xi_in else nt_init nt p) with
  | None => (None, false)
  | Some xi =>
      match nt_resid nt xi p (0, 0, 0) with
      | None => (None, false)
      | Some (r, f) => inverse_loop nt p tol (Z.to_nat max_iterations) xi r f false
      end
  end.

(** The test shared by map_initial (337-364), map_final (499-527) and XMapNewton::x_inverse (239-262): invert, collapse,
    clamp, uncollapse, residual of the clamped point. Result: the clamped xi, if accepted. A None from
    loc_coord_to_loc_collapsed cannot occur (see coll_total). *)
Definition clamp1 (ctol x : R) : R := fmax (fmin x (1 + ctol)) (-1 - ctol).
Definition clamp3 (ctol : R) (eta : pt3) : pt3 :=
  let '(a, b, c) := eta in (clamp1 ctol a, clamp1 ctol b, clamp1 ctol c).
Definition try_cell (nt : newton_type) (p xi_in : pt3) (max_iterations : Z) (tol ctol : R) (initial_override : bool)
  : option pt3 :=
  let '(x, converged) := x_inverse_kernel nt p xi_in max_iterations tol initial_override in
  do xi <- x;
  do eta0 <- nt_coll nt xi;
  let eta := clamp3 ctol eta0 in
  let xi' := nt_loc nt eta in
  do rf <- nt_resid nt xi' p eta;
  let contained := Rle_bool (fst rf) tol in
  if contained && converged then Some xi' else None.

(** map_final 420-423 / x_map_newton.hpp 203-207: the start points, in loop order (g2 outermost). *)
Definition grid_sizes (ndim : nat) (grid_size : Z) : Z * Z * Z :=
  let gx := Z.max (grid_size - 1) 1 in
  (gx, (if Nat.ltb 1 ndim then gx else 1%Z), (if Nat.ltb 2 ndim then gx else 1%Z)).
Definition grid_starts (ndim : nat) (grid_size : Z) : list pt3 :=
  let '(gx, gy, gz) := grid_sizes ndim grid_size in
  let w := 2 / IZR gx in
  flat_map (fun g2 => flat_map (fun g1 => map (fun g0 => (-1 + IZR g0 * w, -1 + IZR g1 * w, -1 + IZR g2 * w))
    (zrange 0 gx)) (zrange 0 gy)) (zrange 0 gz).
(** Loops guarded by [!cell_found]: the first start that is accepted. *)
Fixpoint find_first {A B} (f : A -> option B) (l : list A) : option B :=
  match l with
  | [] => None
  | x :: r => match f x with Some y => Some y | None => find_first f r end
  end.
(** XMapNewton::x_inverse, x_map_newton.hpp 184-279. Some xi = returned true with xi; None = returned false (the
    coordinates then written are meaningless). num_modes_factor * num_modes is [grid_size]. *)
Definition x_inverse (nt : newton_type) (ndim : nat) (grid_size : Z) (p : pt3) (tol ctol : R) : option pt3 :=
  find_first (fun start => try_cell nt p start 51 tol ctol true) (grid_starts ndim grid_size).

(** * MapParticlesNewton *)
(** Configuration, map_particles_newton.hpp 135-146: ParameterStore::get(key, default). *)
Record store := { get_real : string -> option R; get_int : string -> option Z }.
Definition get_or {A} (o : option A) (d : A) : A := match o with Some x => x | None => d end.
Record newton_config := { newton_tol : R; newton_max_iteration : Z; contained_tol : R;
  num_modes_factor : R; grid_size_min : Z; grid_size_max : Z }.
Definition read_config (c : store) : newton_config :=
  let tol := get_or (get_real c "MapParticlesNewton/newton_tol") (/ 10 ^ 8) in
  {| newton_tol := tol;
     newton_max_iteration := get_or (get_int c "MapParticlesNewton/newton_max_iteration") 51%Z;
     contained_tol := get_or (get_real c "MapParticlesNewton/contained_tol") tol;
     num_modes_factor := get_or (get_real c "MapParticlesNewton/num_modes_factor") 1;
     grid_size_min := get_or (get_int c "MapParticlesNewton/grid_size_min") 2%Z;
     grid_size_max := get_or (get_int c "MapParticlesNewton/grid_size_min") 4%Z |}.
(** 227-230 *)
Definition grid_size_of (c : newton_config) (num_modes : Z) : Z :=
  Z.min (Z.max (Ztrunc (IZR num_modes * num_modes_factor c)) (grid_size_min c)) (grid_size_max c).

(** A geometry as the mappers see it: bounding box, global id, owning rank, Newton data, number of modes of its map,
    shape type, GetGtype() == eRegular, geometry_is_linear, vertex coordinates. *)
Record mgeom := { g_box : box; g_id : Z; g_rank : Z; g_newton : newton_type; g_modes : Z;
  g_shape : Z; g_regular : bool; g_linear : bool; g_verts : nat -> nat -> R }.
(** gid_to_lookup_id (coarse_lookup_map.hpp 179-190): the last geometry with a given id wins. *)
Fixpoint lookup_id (gs : list mgeom) (pos : Z) (id : Z) : option Z :=
  match gs with
  | [] => None
  | g :: r => match lookup_id r (pos + 1) id with
              | Some i => Some i
              | None => if Z.eqb (g_id g) id then Some pos else None
              end
  end.
(** The tables dh_cell_ids, dh_mpi_ranks, dh_data written at gid_to_lookup_id[id], 190-225. None = not written. *)
Fixpoint fill_tables (all gs : list mgeom) (buf : list (option mgeom)) : option (list (option mgeom)) :=
  match gs with
  | [] => Some buf
  | g :: r => do i <- lookup_id all 0 (g_id g); do b <- updZ buf i (Some g); fill_tables all r b
  end.
(** The constructor 119-236; [geoms] are the local geometries in map order followed by the remote ones. *)
Record newton_mapper := { nm_ndim : nat; nm_conf : newton_config; nm_grid_size : Z; nm_num_geoms : nat;
  nm_lookup : option lookup; nm_tables : list (option mgeom) }.
Definition make_newton_mapper (ndim : nat) (conf : store) (geoms : list mgeom) : option newton_mapper :=
  let c := read_config conf in
  match geoms with
  | [] => Some {| nm_ndim := ndim; nm_conf := c; nm_grid_size := 0; nm_num_geoms := 0; nm_lookup := None; nm_tables := [] |}
  | _ =>
      do lk <- make_lookup ndim (map g_box geoms);
      do t <- fill_tables geoms geoms (repeat None (length geoms));
      let num_modes := fold_left Z.max (map g_modes geoms) 0%Z in
      Some {| nm_ndim := ndim; nm_conf := c; nm_grid_size := grid_size_of c num_modes; nm_num_geoms := length geoms;
              nm_lookup := Some lk; nm_tables := t |}
  end.

(** A particle: positions, NESO_CELL_ID[0], NESO_MPI_RANK[1], NESO_REFERENCE_POSITIONS. *)
Record particle := { q_pos : list R; q_cell : Z; q_rank : Z; q_ref : list R }.
(** 285-287 *)
Definition kernel_pos (ndim : nat) (q : particle) : pt3 :=
  (nthR (q_pos q) 0, (if Nat.ltb 1 ndim then nthR (q_pos q) 1 else 0), (if Nat.ltb 2 ndim then nthR (q_pos q) 2 else 0)).
(** 367-373 *)
Definition bind_particle (ndim : nat) (id rank : Z) (xi : pt3) (q : particle) : particle :=
  {| q_pos := q_pos q; q_cell := id; q_rank := rank;
     q_ref := firstn ndim [fst (fst xi); snd (fst xi); snd xi] ++ skipn ndim (q_ref q) |}.
(** The loop over candidates 320-375 / 475-541. The outer None: read of an entry never written, or out of bounds. *)
Fixpoint candidate_loop (tables : list (option mgeom)) (try : mgeom -> option pt3) (cands : list Z)
  : option (option (mgeom * pt3)) :=
  match cands with
  | [] => Some None
  | i :: r =>
      do o <- rdZ tables i; do g <- o;
      match try g with
      | Some xi => Some (Some (g, xi))
      | None => candidate_loop tables try r
      end
  end.
(** One particle through a coarse-lookup kernel: map_initial (282-376), map_final (437-542),
    MapParticles2DRegular::map (map_particles_2d_regular.cpp 161-265), MapParticles3DRegular::map
    (map_particles_3d_regular.cpp 175-306): skip bound particles, candidates, first accepting one, write. *)
Definition coarse_kernel (ndim : nat) (lookup : option lookup) (tables : list (option mgeom))
    (try : mgeom -> pt3 -> option pt3) (q : particle) : option particle :=
  if Z.ltb (q_rank q) 0 then
    do lk <- lookup;
    let p := kernel_pos ndim q in
    do cands <- kernel_candidates lk (q_pos q);
    do found <- candidate_loop tables (fun g => try g p) cands;
    Some match found with
         | Some (g, xi) => bind_particle ndim (g_id g) (g_rank g) xi q
         | None => q
         end
  else Some q.
Definition newton_kernel (m : newton_mapper) (try : mgeom -> pt3 -> option pt3) (q : particle) : option particle :=
  coarse_kernel (nm_ndim m) (nm_lookup m) (nm_tables m) try q.
Definition try_initial (m : newton_mapper) (g : mgeom) (p : pt3) : option pt3 :=
  let c := nm_conf m in
  try_cell (g_newton g) p (0, 0, 0) (newton_max_iteration c) (newton_tol c) (contained_tol c) false.
Definition try_final (m : newton_mapper) (g : mgeom) (p : pt3) : option pt3 :=
  let c := nm_conf m in
  find_first (fun start => try_cell (g_newton g) p start (newton_max_iteration c) (newton_tol c) (contained_tol c) true)
    (grid_starts (nm_ndim m) (nm_grid_size m)).
(** 244-246 and 394-396: nothing to do without geometries *)
Definition initial_kernel (m : newton_mapper) (q : particle) : option particle :=
  if Nat.eqb (nm_num_geoms m) 0 then Some q else newton_kernel m (try_initial m) q.
Definition final_kernel (m : newton_mapper) (q : particle) : option particle :=
  if Nat.eqb (nm_num_geoms m) 0 then Some q else newton_kernel m (try_final m) q.

(** * MapParticlesHost (map_particles_host.cpp 81-192), one particle. [elements] is GetElementsContainingPoint,
    [contains] the outcome of contains_point_{2,3}d on a candidate (its local coordinates if accepted). Local candidates
    get this rank. Simplification: local_coord always holds ndim values, see 91-94. *)
Record host_geom := { h_id : Z; h_rank : Z; h_contains : list R -> option pt3 }.
Definition host_kernel (ndim : nat) (locals : list R -> list host_geom) (remotes : list host_geom) (q : particle) : particle :=
  if Z.ltb (q_rank q) 0 then
    let p := q_pos q in
    let find := find_first (fun h => match h_contains h p with Some xi => Some (h, xi) | None => None end) in
    match find (locals p) with
    | Some (h, xi) => bind_particle ndim (h_id h) (h_rank h) xi q
    | None => match find remotes with
              | Some (h, xi) => bind_particle ndim (h_id h) (h_rank h) xi q
              | None => q
              end
    end
  else q.

(** * The pipelines. A particle group is the list of its cells; a particle loop executes its kernel on every particle of
    one cell, or of all cells when map_cell = -1 (particle loops: NESO-Particles). *)
Notation group := (list (list particle)) (only parsing).
Definition stage (k : particle -> option particle) (map_cell : Z) (grp : group) : option group :=
  if Z.ltb (-1) map_cell then
    do cell <- nth_error grp (Z.to_nat map_cell);
    do cell' <- mapM k cell;
    updZ grp map_cell cell'
  else mapM (mapM k) grp.
(** check_map, map_particles_common.cpp 10-33: true iff some particle has rank <= -1 *)
Definition unbound (q : particle) : bool := negb (Z.ltb (-1) (q_rank q)).
Definition check_map (grp : group) (map_cell : Z) : option bool :=
  if Z.ltb map_cell 0 then Some (existsb (existsb unbound) grp)
  else do cell <- nth_error grp (Z.to_nat map_cell); Some (existsb unbound cell).

(** Result of a map call: the group, or a failed assertion, or undefined behaviour. *)
Inductive mresult := Mapped (grp : group) | AssertFailed (grp : group) | Bad.
Fixpoint run_stages (ks : list (particle -> option particle)) (map_cell : Z) (grp : group) : option group :=
  match ks with
  | [] => Some grp
  | k :: r => do g <- stage k map_cell grp; run_stages r map_cell g
  end.

(** MapParticles2D::map (map_particles_2d.cpp 59-107): [regular] present iff count_regular > 0, [newton] iff
    count_deformed > 0. *)
Definition map2d (regular : option (particle -> option particle)) (newton : option newton_mapper)
    (grp : group) (map_cell : Z) : mresult :=
  match (do g1 <- match regular with Some k => stage k map_cell grp | None => Some grp end;
         match newton with
         | None => Some g1
         | Some m => do c <- check_map g1 map_cell;
                     if c : bool then run_stages [initial_kernel m; final_kernel m] map_cell g1 else Some g1
         end) with
  | None => Bad
  | Some g2 =>
      if Z.ltb (-1) map_cell then
        match check_map g2 map_cell with
        | None => Bad
        | Some c => if c then AssertFailed g2 else Mapped g2
        end
      else Mapped g2
  end.
(** MapParticles3D::map (map_particles_3d.cpp 120-198): [mappers] are the existing ones among tet, prism, hex, pyramid,
    non-linear, in this order; [host] always exists. The host fallback runs on the whole group. *)
Definition map3d (regular : option (particle -> option particle)) (mappers : list newton_mapper)
    (host : particle -> particle) (grp : group) (map_cell : Z) : mresult :=
  match run_stages (match regular with Some k => [k] | None => [] end
                    ++ map initial_kernel mappers ++ map final_kernel mappers) map_cell grp with
  | None => Bad
  | Some g2 =>
      if Z.ltb (-1) map_cell then
        match check_map g2 map_cell with
        | None => Bad
        | Some c =>
            match (if c : bool then stage (fun q => Some (host q)) (-1) g2 else Some g2) with
            | None => Bad
            | Some g3 =>
                match check_map g3 (-1) with
                | None => Bad
                | Some c' => if c' then AssertFailed g3 else Mapped g3
                end
            end
        end
      else Mapped g2
  end.
