(** Model of bounding boxes, the Cartesian mesh, the coarse lookup map and the Cartesian
    periodic boundary condition. Everything over exact reals. *)
From Verif Require Export M_RealBase.
From Verif Require M_Util.

Definition bind {A B} (o : option A) (f : A -> option B) : option B :=
  match o with Some a => f a | None => None end.
Notation "'do' x <- e ; f" := (bind e (fun x => f)) (at level 200, x pattern, e at level 100, f at level 200).
Definition check (b : bool) {A} (k : option A) : option A := if b then k else None.

(** * Boxes (include/nektar_interface/bounding_box_intersection.hpp).
    A box is the list of its (lower, upper) pairs per dimension, i.e. the entries [d] and
    [d + stride] of the C++ array. *)
Definition box := list (R * R).

(** lambda_interval_overlap, 35-47 *)
Definition interval_overlap (la ua lb ub : R) : R :=
  if Rle_bool ua lb then 0
  else if Rle_bool ub la then 0
  else fmin ub ua - fmax lb la.
(** bounding_box_intersection 32-54: product over the first ndim dimensions
    ([ndim] is the common length of the lists). *)
Fixpoint bb_overlap_loop (a b : box) (area : R) : R :=
  match a, b with
  | (la, ua) :: a', (lb, ub) :: b' => bb_overlap_loop a' b' (area * interval_overlap la ua lb ub)
  | _, _ => area
  end.
Definition bounding_box_intersection (a b : box) : R := bb_overlap_loop a b 1.

(** reset_bounding_box 63-72 *)
Definition reset_bounding_box (ndim : nat) : box := repeat (DBL_MAX, - DBL_MAX) ndim.
(** expand_bounding_box_array 85-98: [acc] is the in/out argument. *)
Fixpoint expand_bounding_box (inb acc : box) : box :=
  match inb, acc with
  | (li, ui) :: i', (la, ua) :: a' => (fmin la li, fmax ua ui) :: expand_bounding_box i' a'
  | _, _ => acc
  end.
(** interval_intersect 152-155 *)
Definition interval_intersect (lhs_a rhs_a lhs_b rhs_b : R) : bool :=
  Rle_bool lhs_b rhs_a && Rle_bool lhs_a rhs_b.
(** bounding_box_intersect 165-180 *)
Fixpoint bounding_box_intersect_loop (a b : box) (flag : bool) : bool :=
  match a, b with
  | (la, ua) :: a', (lb, ub) :: b' =>
      bounding_box_intersect_loop a' b' (flag && interval_intersect la ua lb ub)
  | _, _ => flag
  end.
Definition bounding_box_intersect (a b : box) : bool := bounding_box_intersect_loop a b true.
(** MeshHierarchyBoundingBoxIntersection 186-242. The boxes of the owned cells
    (get_bounding_box 123-141, through NESO-Particles' linear_to_tuple_global) are given. *)
Definition mhbb_bounding_box (ndim : nat) (boxes : list box) : box :=
  fold_left (fun acc b => expand_bounding_box b acc) boxes (reset_bounding_box ndim).
Definition mhbb_intersects (ndim : nat) (boxes : list box) (q : box) : bool :=
  if negb (bounding_box_intersect (mhbb_bounding_box ndim boxes) q) then false
  else existsb (fun b => bounding_box_intersect b q) boxes.

(** * DeviceCartesianMesh (include/nektar_interface/utility_mesh_cartesian.hpp) *)
Record cmesh := mkMesh { m_origin : list R; m_extents : list R; m_counts : list Z }.
(** constructor 48-89; [None] = failed assertion. [int] overflow is not modelled. *)
Definition make_mesh (ndim : nat) (origin extents : list R) (counts : list Z) : option cmesh :=
  check (Nat.leb ndim (length origin)) (check (Nat.leb ndim (length extents))
  (check (Nat.leb ndim (length counts))
  (check (forallb (fun d => Rlt_bool 0 (nthR extents d) && Z.ltb 0 (nthZ counts d)) (seq 0 ndim))
  (Some (mkMesh (firstn ndim origin) (firstn ndim extents) (firstn ndim counts)))))).
Definition m_ndim (m : cmesh) : nat := length (m_counts m).
(** 79-81 *)
Definition cell_width (m : cmesh) (d : nat) : R := nthR (m_extents m) d / IZR (nthZ (m_counts m) d).
Definition inv_cell_width (m : cmesh) (d : nat) : R := 1 / cell_width m d.
(** the clamping shared by get_cell_in_dimension (111-114) and the mapping kernels *)
Definition clamp_cell (c count : Z) : Z :=
  let c := if Z.ltb c 0 then 0%Z else c in
  if Z.leb count c then (count - 1)%Z else c.
(** get_cell_in_dimension 98-116; [None] = failed assertion *)
Definition TOL_MESH : R := / 10 ^ 8.
Definition get_cell_in_dimension (m : cmesh) (dim : nat) (point : R) : option Z :=
  let o := nthR (m_origin m) dim in
  check (Rle_bool (o - TOL_MESH) point)
  (check (Rle_bool point (o + nthR (m_extents m) dim + TOL_MESH))
  (check (Nat.ltb dim (m_ndim m))
  (let cell_float := (point - o) * inv_cell_width m dim in
   Some (clamp_cell (Ztrunc cell_float) (nthZ (m_counts m) dim))))).
(** get_linear_cell_index 125-135: the loop from ndim-2 down to 0 *)
Fixpoint linear_loop (counts tuple : list Z) (k : nat) (idx : Z) : Z :=
  match k with
  | O => idx
  | S d => linear_loop counts tuple d (idx * nthZ counts d + nthZ tuple d)%Z
  end.
Definition get_linear_cell_index (m : cmesh) (tuple : list Z) : Z :=
  linear_loop (m_counts m) tuple (m_ndim m - 1) (nthZ tuple (m_ndim m - 1)).
(** get_bounding_box 143-160; [None] = failed assertion *)
Fixpoint mesh_box_loop (m : cmesh) (tuple : list Z) (d k : nat) : option box :=
  match k with
  | O => Some []
  | S k' =>
      let cell := nthZ tuple d in
      check (Z.leb 0 cell) (check (Z.ltb cell (nthZ (m_counts m) d))
      (do rest <- mesh_box_loop m tuple (S d) k';
       Some ((nthR (m_origin m) d + IZR cell * cell_width m d,
              nthR (m_origin m) d + (IZR cell + 1) * cell_width m d) :: rest)))
  end.
Definition get_bounding_box (m : cmesh) (tuple : list Z) : option box := mesh_box_loop m tuple 0 (m_ndim m).
(** get_cell_count 165-171 *)
Definition get_cell_count (m : cmesh) : Z := fold_left Z.mul (m_counts m) 1%Z.

(** * CoarseLookupMap (include/nektar_interface/particle_cell_mapping/coarse_lookup_map.hpp) *)
(** [for (int c = s; c <= e; c++)] *)
Definition zrange (s e : Z) : list Z := map (fun i => (s + Z.of_nat i)%Z) (seq 0 (Z.to_nat (e - s + 1))).
(** loops 61-66: the last dimension is outermost *)
Fixpoint cell_tuples (starts ends : list Z) : list (list Z) :=
  match starts, ends with
  | s :: ss, e :: es => flat_map (fun rest => map (fun c => c :: rest) (zrange s e)) (cell_tuples ss es)
  | _, _ => [[]]
  end.
Fixpoint mapM {A B} (f : A -> option B) (l : list A) : option (list B) :=
  match l with [] => Some [] | x :: r => do y <- f x; do ys <- mapM f r; Some (y :: ys) end.
(** add_geom_to_map 40-78; the result lists the (cell, (overlap, geom index)) entries pushed *)
Definition push := (Z * (R * Z))%type.
Definition add_geom_cell (m : cmesh) (gb : box) (gid : Z) (tuple : list Z) : option (list push) :=
  let cell_index := get_linear_cell_index m tuple in
  do cell_box <- get_bounding_box m tuple;
  let overlap_estimate := bounding_box_intersection gb cell_box in
  Some (if Rlt_bool 0 overlap_estimate then [(cell_index, (overlap_estimate, gid))] else []).
Definition add_geom_to_map (m : cmesh) (gb : box) (gid : Z) : option (list push) :=
  do starts <- mapM (fun d => get_cell_in_dimension m d (fst (nth d gb (0, 0)))) (seq 0 (m_ndim m));
  do ends <- mapM (fun d => get_cell_in_dimension m d (snd (nth d gb (0, 0)))) (seq 0 (m_ndim m));
  do ps <- mapM (add_geom_cell m gb gid) (cell_tuples starts ends);
  Some (concat ps).
(** 179-190: geometries in order, local then remote; the geom index is the position *)
Fixpoint add_all_geoms (m : cmesh) (geoms : list box) (cell_index : Z) : option (list push) :=
  match geoms with
  | [] => Some []
  | g :: r => do p <- add_geom_to_map m g cell_index;
              do q <- add_all_geoms m r (cell_index + 1)%Z;
              Some (p ++ q)
  end.
(** 133-161: number of coarse cells per dimension. [None]: division by zero extent or
    failed assertion. int overflow is not modelled. *)
Definition box_extents (b : box) : list R := map (fun lu => snd lu - fst lu) b.
Definition zprod (l : list Z) : Z := fold_left Z.mul l 1%Z.
Definition coarse_counts (ndim : nat) (extents : list R) (cell_count : Z) : option (list Z) :=
  let min_extent := fold_left fmin extents DBL_MAX in
  let target_cell_count := (4 ^ Z.of_nat ndim * cell_count)%Z in
  let base_extent := min_extent / 4 in
  check (negb (Req_bool base_extent 0))
  (let counts := map (fun e => Ztrunc (e / base_extent)) extents in
   let linear := zprod counts in
   if Z.ltb linear target_cell_count then
     check (negb (Z.eqb linear 0))
     (let diff_factor := IZR target_cell_count / IZR linear in
      let diff_scaling := Zceil (exp (ln diff_factor / INR ndim)) in
      let counts' := map (fun c => (c * diff_scaling)%Z) counts in
      check (Z.leb target_cell_count (zprod counts')) (Some counts'))
   else Some counts).
(** operator< on std::pair<double,int> *)
Definition pair_lt (a b : R * Z) : bool :=
  Rlt_bool (fst a) (fst b) || (negb (Rlt_bool (fst b) (fst a)) && Z.ltb (snd a) (snd b)).
(** std::list::sort (stable) as insertion sort, then reverse (194-196) *)
Fixpoint insert_pair (x : R * Z) (l : list (R * Z)) : list (R * Z) :=
  match l with
  | [] => [x]
  | y :: r => if pair_lt x y then x :: l else y :: insert_pair x r
  end.
Definition sort_reverse (l : list (R * Z)) : list (R * Z) :=
  rev (fold_left (fun acc x => insert_pair x acc) l []).
Definition cell_list (pushes : list push) (cell : Z) : list (R * Z) :=
  sort_reverse (map snd (filter (fun p => Z.eqb (fst p) cell) pushes)).
Record lookup := mkLookup {
  lk_mesh : cmesh; lk_stride : Z;
  lk_map : list (option Z);     (* dh_map; [None] = uninitialised *)
  lk_sizes : list Z }.          (* dh_map_sizes *)
(** 217-221: write one cell's list at [mesh_cell_id * stride + inner_index] *)
Fixpoint write_list (buf : list (option Z)) (pos : Z) (l : list (R * Z)) : option (list (option Z)) :=
  match l with
  | [] => Some buf
  | x :: r => do b <- M_Util.updZ buf pos (Some (snd x)); write_list b (pos + 1)%Z r
  end.
(** 212-224. Simplification: std::map iterates over the non-empty cells in ascending order; an
    empty cell writes nothing and keeps size 0, so looping over all cells is the same. *)
Fixpoint write_cells (pushes : list push) (stride : Z) (cells : list Z) (buf : list (option Z)) : option (list (option Z)) :=
  match cells with
  | [] => Some buf
  | c :: r =>
      let l := cell_list pushes c in
      do b <- write_list buf (c * stride)%Z l;
      check (Z.leb (Z.of_nat (length l)) stride) (write_cells pushes stride r b)
  end.
(** constructor 103-228 *)
Definition make_lookup (ndim : nat) (geoms : list box) : option lookup :=
  let bb := mhbb_bounding_box ndim geoms in  (* 113-122: same reset/expand fold *)
  do counts <- coarse_counts ndim (box_extents bb) (Z.of_nat (length geoms));
  do m <- make_mesh ndim (map fst bb) (box_extents bb) counts;
  do pushes <- add_all_geoms m geoms 0%Z;
  let ncell := get_cell_count m in
  check (forallb (fun p => Z.leb 0 (fst p) && Z.ltb (fst p) ncell) pushes)
  (let cells := zrange 0 (ncell - 1)%Z in
   let stride := fold_left (fun a c => Z.max a (Z.of_nat (length (cell_list pushes c)))) cells 0%Z in
   do buf <- write_cells pushes stride cells (repeat None (Z.to_nat (stride * ncell)));
   Some (mkLookup m stride buf (map (fun c => Z.of_nat (length (cell_list pushes c))) cells))).

(** Kernel side: MapParticlesNewton::map_initial / map_final 288-326, 443-481 (the same text as
    in map_particles_{2,3}d_regular.cpp), ndim in 1..3. *)
Definition kernel_cell (m : cmesh) (p : list R) (d : nat) : Z :=
  clamp_cell (Ztrunc (inv_cell_width m d * (nthR p d - nthR (m_origin m) d))) (nthZ (m_counts m) d).
Definition kernel_linear_cell (m : cmesh) (p : list R) : Z :=
  let k := m_ndim m in
  let c0 := kernel_cell m p 0 in
  let c1 := if Nat.ltb 1 k then kernel_cell m p 1 else 0%Z in
  let c2 := if Nat.ltb 2 k then kernel_cell m p 2 else 0%Z in
  let mcc0 := nthZ (m_counts m) 0 in
  let mcc1 := if Nat.ltb 1 k then nthZ (m_counts m) 1 else 0%Z in
  (c0 + c1 * mcc0 + c2 * mcc0 * mcc1)%Z.
Definition rdZ {A} (l : list A) (i : Z) : option A := if Z.ltb i 0 then None else nth_error l (Z.to_nat i).
(** All candidates the kernel would visit if none matched; [None] = out of bounds or
    uninitialised read. *)
Definition kernel_candidates (lk : lookup) (p : list R) : option (list Z) :=
  let lin := kernel_linear_cell (lk_mesh lk) p in
  let valid := Z.leb 0 lin && Z.ltb lin (get_cell_count (lk_mesh lk)) in
  if negb valid then Some [] else
  do size <- rdZ (lk_sizes lk) lin;
  mapM (fun c => do o <- rdZ (lk_map lk) (lin * lk_stride lk + c)%Z; o) (zrange 0 (size - 1)%Z).

(** * NektarCartesianPeriodic (src/nektar_interface/particle_boundary_conditions.cpp 5-76) *)
(** per dimension kernel 62-70 *)
Definition periodic_1d (origin extent x : R) : R :=
  let pos := x - origin in
  let n_extent_offset_int := Ztrunc (Rabs pos + 2) in
  fmod (pos + IZR n_extent_offset_int * extent) extent + origin.
Fixpoint periodic_kernel (dom : list (R * R)) (x : list R) : list R :=
  match dom, x with
  | (o, e) :: dom', a :: x' => periodic_1d o e a :: periodic_kernel dom' x'
  | _, _ => x
  end.
(** 19-33, one dimension, one rank: vertices' coordinates in any order *)
Definition local_origin (xs : list R) : R := fold_left fmin xs DBL_MAX.
Definition local_extent (xs : list R) : R := fold_left fmax xs DBL_MIN.
(** 35-42: MPI_Allreduce MIN / MAX, then subtract *)
Definition periodic_domain (ranks : list (list R)) : R * R :=
  let o := fold_left fmin (map local_origin ranks) DBL_MAX in
  let e := fold_left fmax (map local_extent ranks) DBL_MIN in
  (o, e - o).
